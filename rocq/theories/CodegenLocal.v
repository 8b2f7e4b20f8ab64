(** The translation of a term depends on the context of its free symbols only.
    No fold is a candidate for a sum of products. *)
From Verif Require Import Base Scalar Tensor Types Sym Phi Den Term PhiTerm DenFree SpecPhi Lining Typing
  Sizes ClipShift NdOps NdFacts Yarr Axial AxialFacts AxialOps Codegen IndexOps CodegenGet CodegenCtx CodegenCases Subst CodegenAxes YOps CodegenSafe CodegenRed.

Section Local.
Context {FO : FloatOps} {EX : Externs}.
Variable fl : flags.
Variable orc : oracle.

(** * The terms translated along with a term *)

(** A subtraction weighs more: [i - a - b] is read as [i] shifted by [-a + -b]. *)
Fixpoint weight (e : phi) : nat :=
  S match e with
    | PConst _ | PStore _ _ => 0
    | PLet _ b body => weight b + weight body
    | PAssertEq t ops => weight t + list_sum (map weight ops)
    | PDim t _ => weight t
    | PGet t i => weight t + weight i
    | PCons a b => weight a + weight b
    | PFirst t | PSecond t => weight t
    | PVec _ s b => weight s + weight b
    | PFold _ s _ init b => weight s + weight init + weight b
    | PReduce init _ _ xy vecs => weight init + weight xy + list_sum (map weight vecs)
    | PUn _ a => weight a
    | PBin o a b => (match o with BSub => 2 | _ => 0 end) + weight a + weight b
    | PWhere c a b => weight c + weight a + weight b
    | PConcat a b => weight a + weight b
    | PExt _ _ ops => list_sum (map weight ops)
    end.

(** Does phi_to_yarr.py:399-418 find a reduction? *)
Definition reduces (c : nat) (size : phi) (acc : nat) (init body : phi) : option (phi * rop) :=
  if use_reductions fl then
    match typ init with
    | Ok ti =>
        if negb (ty_eqb ti (TScalar KFloat)) || negb (is_nil (free_indices init)) then None
        else match match_reduction_by_body body acc with
             | Some (elem, r) => if negb (considerate orc (psize elem) c size elem) then None else Some (elem, r)
             | None => None
             end
    | Err _ => None
    end
  else None.
Definition elems (i c : nat) (size elem : phi) : phi := PVec i size (substitute elem [(SV c, p_at i)]).

Definition opt_list {A} (o : option A) : list A := match o with Some a => [a] | None => [] end.
Definition shift_parts (item : phi) : list phi :=
  match match_index_clipped_shift item with
  | Some (_, (sh, lo, hi)) => opt_list sh ++ opt_list lo ++ opt_list hi
  | None => []
  end.

(** The terms [go] may be called with for a term, with the symbols bound for them. *)
Definition kids (e : phi) : list (list sym * phi) :=
  match e with
  | PConst _ | PStore _ _ => []
  | PLet x b body => [([], b); ([SV x], body)]
  | PAssertEq t _ => [([], t)]
  | PDim t _ => [([], t)]
  | PGet t i => ([], t) :: ([], i) :: ([], dim_of t 0) :: map (pair []) (shift_parts i)
  | PCons a b => [([], a); ([], b)]
  | PFirst t | PSecond t => [([], t)]
  | PVec i s b => [([], s); ([SX i], b)]
  | PFold c size acc init body =>
      match reduces c size acc init body with
      | Some (elem, _) =>
          if smem (SV acc) (fsyms elem) then []
          else [([], elems (name_of orc e) c size elem); ([], init)]
      | None => [([], size); ([], init); ([SV c; SV acc], body)]
      end
  | PReduce init x y xy vecs =>
      ([], init) :: ([SV x; SV y; SX (name_of orc e)], xy) :: map (pair []) vecs
  | PUn _ a => [([], a)]
  | PBin _ a b => [([], a); ([], b)]
  | PWhere c a b => [([], c); ([], a); ([], b)]
  | PConcat a b => [([], a); ([], b)]
  | PExt _ _ ops => map (pair []) ops
  end.
Definition binds_here (e : phi) : list sym := flat_map fst (kids e).

Inductive visits (p : phi) : phi -> Prop :=
| vis_root : visits p p
| vis_kid e sc c : visits p e -> In (sc, c) (kids e) -> visits p c.

(** * Weights and free symbols of these terms *)

Lemma list_sum_In x l : In x l -> x <= list_sum l.
Proof. induction l; simpl; [tauto|]. intros [<-|H]; [lia|]. apply IHl in H. lia. Qed.

Lemma weight_at i c (e : phi) : weight (psub [(SV c, p_at i)] e) = weight e.
Proof.
  assert (L : forall ops, Forall (fun e => weight (psub [(SV c, p_at i)] e) = weight e) ops ->
    map weight (map (psub [(SV c, p_at i)]) ops) = map weight ops).
  { intros ops H. rewrite map_map. apply map_ext_in. rewrite Forall_forall in H. auto. }
  induction e using phi_ind'; simpl; rewrite ?L by auto; try congruence.
  unfold sassoc. simpl. destruct (sym_eqb s (SV c)); reflexivity.
Qed.

Lemma free_at i c (e : phi) : ~ In (SV c) (bsyms e) -> forall s,
  free_in s (psub [(SV c, p_at i)] e) -> (free_in s e /\ s <> SV c) \/ s = SX i.
Proof.
  assert (L : forall ops, Forall (fun e => ~ In (SV c) (bsyms e) -> forall s,
      free_in s (psub [(SV c, p_at i)] e) -> (free_in s e /\ s <> SV c) \/ s = SX i) ops -> ~ In (SV c) (flat_map bsyms ops) ->
    forall s, fold_right or False (map (free_in s) (map (psub [(SV c, p_at i)]) ops)) ->
      (fold_right or False (map (free_in s) ops) /\ s <> SV c) \/ s = SX i).
  { intros ops H N s. rewrite !any_Exists. intros (q & Hq & Hs). apply in_map_iff in Hq as (o & <- & Ho).
    rewrite Forall_forall in H.
    assert (N' : ~ In (SV c) (bsyms o)) by (intros K; apply N; apply in_flat_map; eauto).
    destruct (H o Ho N' s Hs) as [[A B]|A]; auto. left. split; eauto. }
  induction e using phi_ind'; simpl; intros N s0 Hs.
  - destruct Hs.
  - unfold sassoc in Hs. simpl in Hs. destruct (sym_eqb s (SV c)) eqn:Q; simpl in Hs; auto.
    subst s0. left. split; auto. intros ->. rewrite sym_eqb_refl in Q. discriminate.
  - rewrite in_app_iff in N. destruct Hs as [Hs|[H1 Hs]].
    + destruct (IHe1 ltac:(tauto) _ Hs) as [[A B]|A]; tauto.
    + destruct (IHe2 ltac:(tauto) _ Hs) as [[A B]|A]; tauto.
  - rewrite in_app_iff in N. destruct Hs as [Hs|Hs].
    + destruct (IHe ltac:(tauto) _ Hs) as [[A B]|A]; tauto.
    + destruct (L ops ltac:(auto) ltac:(tauto) _ Hs) as [[A B]|A]; tauto.
  - auto.
  - rewrite in_app_iff in N. destruct Hs as [Hs|Hs]; [destruct (IHe1 ltac:(tauto) _ Hs) as [[A B]|A]|destruct (IHe2 ltac:(tauto) _ Hs) as [[A B]|A]]; tauto.
  - rewrite in_app_iff in N. destruct Hs as [Hs|Hs]; [destruct (IHe1 ltac:(tauto) _ Hs) as [[A B]|A]|destruct (IHe2 ltac:(tauto) _ Hs) as [[A B]|A]]; tauto.
  - auto.
  - auto.
  - rewrite in_app_iff in N. destruct Hs as [Hs|[H1 Hs]].
    + destruct (IHe1 ltac:(tauto) _ Hs) as [[A B]|A]; tauto.
    + destruct (IHe2 ltac:(tauto) _ Hs) as [[A B]|A]; tauto.
  - rewrite !in_app_iff in N. destruct Hs as [Hs|[Hs|(H1 & H2 & Hs)]].
    + destruct (IHe1 ltac:(tauto) _ Hs) as [[A B]|A]; tauto.
    + destruct (IHe2 ltac:(tauto) _ Hs) as [[A B]|A]; tauto.
    + destruct (IHe3 ltac:(tauto) _ Hs) as [[A B]|A]; tauto.
  - rewrite !in_app_iff in N. destruct Hs as [Hs|[Hs|(H1 & H2 & Hs)]].
    + destruct (IHe1 ltac:(tauto) _ Hs) as [[A B]|A]; tauto.
    + destruct (L vecs ltac:(auto) ltac:(tauto) _ Hs) as [[A B]|A]; tauto.
    + destruct (IHe2 ltac:(tauto) _ Hs) as [[A B]|A]; tauto.
  - auto.
  - rewrite in_app_iff in N. destruct Hs as [Hs|Hs]; [destruct (IHe1 ltac:(tauto) _ Hs) as [[A B]|A]|destruct (IHe2 ltac:(tauto) _ Hs) as [[A B]|A]]; tauto.
  - rewrite !in_app_iff in N. destruct Hs as [Hs|[Hs|Hs]].
    + destruct (IHe1 ltac:(tauto) _ Hs) as [[A B]|A]; tauto.
    + destruct (IHe2 ltac:(tauto) _ Hs) as [[A B]|A]; tauto.
    + destruct (IHe3 ltac:(tauto) _ Hs) as [[A B]|A]; tauto.
  - rewrite in_app_iff in N. destruct Hs as [Hs|Hs]; [destruct (IHe1 ltac:(tauto) _ Hs) as [[A B]|A]|destruct (IHe2 ltac:(tauto) _ Hs) as [[A B]|A]]; tauto.
  - apply (L ops); auto.
Qed.

Lemma dim_of_weight t : forall ax, weight (dim_of t ax) <= S (weight t).
Proof.
  induction t using phi_ind'; intros k; cbn [dim_of]; try (simpl; lia).
  - specialize (IHt1 (S k)). simpl. lia.
  - destruct k; simpl; lia.
Qed.
Lemma dim_of_free t s : forall ax, free_in s (dim_of t ax) -> free_in s t.
Proof.
  induction t using phi_ind'; intros k; cbn [dim_of]; try (simpl; tauto).
  - intros H. left. eauto.
  - destruct k; simpl; tauto.
Qed.

(** The parts of a clipped shift are made of subterms. *)
Definition part_ok (e : phi) (o : option phi) : Prop :=
  forall q, o = Some q -> weight q <= weight e /\ forall s, free_in s q -> free_in s e.
Definition parts_ok (e : phi) (t : option clipped) : Prop :=
  forall d lo hi, t = Some (d, lo, hi) -> part_ok e d /\ part_ok e lo /\ part_ok e hi.

Lemma parts_first e a b : parts_ok e a -> parts_ok e b -> parts_ok e (first_opt a b).
Proof. destruct a; simpl; auto. Qed.
Lemma part_none e : part_ok e None.
Proof. intros q H. discriminate. Qed.
Lemma parts_none e : parts_ok e (Some (None, None, None)).
Proof. intros d lo hi H. injection H as <- <- <-. auto using part_none. Qed.

Lemma parts_add e a other t : parts_ok a t -> weight a + weight other < weight e ->
  (forall s, free_in s a -> free_in s e) -> (forall s, free_in s other -> free_in s e) ->
  parts_ok e (clip_shift_add t other).
Proof.
  intros H W Fa Fo d lo hi. unfold clip_shift_add. destruct (negb _); [discriminate|].
  destruct t as [[[d0 [l0|]] [h0|]]|]; try discriminate. intros Q. injection Q as <- <- <-.
  destruct (H _ _ _ eq_refl) as (Hd & _ & _). split; [|auto using part_none].
  intros q Q. injection Q as <-. destruct d0 as [d0|]; [|split; [lia|auto]].
  destruct (Hd _ eq_refl) as [W' F']. simpl. split; [lia|]. intros s [K|K]; auto.
Qed.
Lemma parts_min e a other t : parts_ok a t -> weight a + weight other < weight e ->
  (forall s, free_in s a -> free_in s e) -> (forall s, free_in s other -> free_in s e) ->
  parts_ok e (clip_shift_min t other).
Proof.
  intros H W Fa Fo d lo hi. unfold clip_shift_min. destruct (negb _); [discriminate|].
  destruct t as [[[d0 l0] h0]|]; try discriminate. intros Q. injection Q as <- <- <-.
  destruct (H _ _ _ eq_refl) as (Hd & Hl & Hh). split; [|split]; intros q Q.
  - destruct (Hd _ Q) as [A B]. split; [lia|auto].
  - destruct (Hl _ Q) as [A B]. split; [lia|auto].
  - injection Q as <-. destruct h0 as [h0|]; [|split; [lia|auto]]. destruct (Hh _ eq_refl) as [A B]. simpl. split; [lia|]. intros s [K|K]; auto.
Qed.
Lemma parts_max e a other t : parts_ok a t -> weight a + weight other < weight e ->
  (forall s, free_in s a -> free_in s e) -> (forall s, free_in s other -> free_in s e) ->
  parts_ok e (clip_shift_max t other).
Proof.
  intros H W Fa Fo d lo hi. unfold clip_shift_max. destruct (negb _); [discriminate|].
  destruct t as [[[d0 l0] h0]|]; try discriminate. intros Q. injection Q as <- <- <-.
  destruct (H _ _ _ eq_refl) as (Hd & Hl & Hh). split; [|split]; intros q Q.
  - destruct (Hd _ Q) as [A B]. split; [lia|auto].
  - injection Q as <-. destruct l0 as [l0|]; [|split; [lia|auto]]. destruct (Hl _ eq_refl) as [A B]. simpl. split; [lia|]. intros s [K|K]; auto.
  - destruct h0 as [h0|]; [|discriminate]. injection Q as <-. destruct (Hh _ eq_refl) as [A B]. simpl. split; [lia|]. intros s [K|K]; auto.
Qed.

Lemma match_parts s e : parts_ok e (match_clipped_shift e s).
Proof.
  induction e using phi_ind'; cbn [match_clipped_shift]; destruct (is_nil _); try apply parts_none; try (intros ? ? ? Q; discriminate).
  - destruct (sym_eqb _ _); [apply parts_none|intros ? ? ? Q; discriminate].
  - destruct o; try (intros ? ? ? Q; discriminate); apply parts_first.
    + apply (parts_add _ e1); simpl; auto; lia.
    + apply (parts_add _ e2); simpl; auto; lia.
    + apply (parts_add _ e1); simpl; auto; lia.
    + apply (parts_add _ e2); simpl; auto; [|lia]. unfold match_negated. destruct (is_nil _); [apply parts_none|intros ? ? ? Q; discriminate].
    + apply (parts_min _ e1); simpl; auto; lia.
    + apply (parts_min _ e2); simpl; auto; lia.
    + apply (parts_max _ e1); simpl; auto; lia.
    + apply (parts_max _ e2); simpl; auto; lia.
Qed.

Lemma shift_parts_ok item q : In q (shift_parts item) -> weight q <= weight item /\ forall s, free_in s q -> free_in s item.
Proof.
  unfold shift_parts, match_index_clipped_shift. destruct (the_index _) as [i|]; [|intros []].
  pose proof (match_parts (SX i) item) as H. destruct (match_clipped_shift item (SX i)) as [[[d lo] hi]|]; simpl; [|intros []].
  destruct (H _ _ _ eq_refl) as (H1 & H2 & H3). rewrite !in_app_iff. unfold opt_list.
  intros [K|[K|K]]; [destruct d|destruct lo|destruct hi]; try destruct K as [<-|[]]; try destruct K; auto.
Qed.

(** ** Programs whose visited terms bind different symbols *)

Definition needs_name (e : phi) : bool := match e with PFold _ _ _ _ _ | PReduce _ _ _ _ _ => true | _ => false end.

(** The fold is not a candidate for phi_to_yarr.py:80-155. *)
Definition no_einsum (e : phi) : bool :=
  negb (use_einsum fl) ||
  match lift e with
  | Ok d => is_nil (contract d) || negb (existsb (fun p => 1 <? length p) (products d))
  | Err _ => false
  end.
Lemma no_einsum_fold rec idxs vax e : no_einsum e = true ->
  (if use_einsum fl then einsum_fold fl orc rec idxs vax e else Ok None) = Ok None.
Proof.
  unfold no_einsum, einsum_fold. destruct (use_einsum fl); auto. cbn [negb orb]. destruct (lift e); [|discriminate]. cbn [bind].
  intros ->. auto.
Qed.

Record tidy (p : phi) : Prop := {
  t_ein : forall c size acc init body, visits p (PFold c size acc init body) -> no_einsum (PFold c size acc init body) = true;
  t_once : forall n1 n2 s, visits p n1 -> visits p n2 -> In s (binds_here n1) -> In s (binds_here n2) -> n1 = n2;
  t_free : forall n s, visits p n -> In s (binds_here n) -> ~ free_in s p;
  t_name : forall e, visits p e -> needs_name e = true -> ~ In (SX (name_of orc e)) (fsyms e ++ bsyms e);
  t_red : forall c size acc init body elem r, visits p (PFold c size acc init body) -> reduces c size acc init body = Some (elem, r) ->
    ~ In (SV c) (bsyms elem) /\ ~ In (SV acc) (bsyms elem) /\ (strict fl = true \/ ~ In (SV acc) (fsyms elem))
}.

Lemma reduces_inv c size acc init body elem r : reduces c size acc init body = Some (elem, r) ->
  use_reductions fl = true /\ typ init = Ok (TScalar KFloat) /\ free_indices init = [] /\
  match_reduction_by_body body acc = Some (elem, r) /\ considerate orc (psize elem) c size elem = true.
Proof.
  unfold reduces. destruct (use_reductions fl); [|discriminate]. destruct (typ init) as [ti|]; [|discriminate].
  destruct (ty_eqb ti (TScalar KFloat)) eqn:Q1; [|discriminate]. apply ty_eqb_eq in Q1. subst.
  destruct (free_indices init); [|discriminate]. cbn [is_nil negb orb].
  destruct (match_reduction_by_body body acc) as [[e0 r0]|]; [|discriminate].
  destruct (considerate orc (psize e0) c size e0) eqn:Q; [|discriminate]. intros H. injection H as -> ->. auto.
Qed.

Lemma reduction_weight body acc elem r : match_reduction_by_body body acc = Some (elem, r) -> weight elem < weight body.
Proof. intros H. apply reduction_elem in H as (a & b & -> & [(_ & ->)|(_ & ->)]); simpl; lia. Qed.
Lemma reduction_free body acc elem r s : match_reduction_by_body body acc = Some (elem, r) -> free_in s elem -> free_in s body.
Proof. intros H. apply reduction_elem in H as (a & b & -> & [(_ & ->)|(_ & ->)]); simpl; tauto. Qed.
Lemma free_fsyms s e : ~ In s (bsyms e) -> free_in s e -> In s (fsyms e).
Proof.
  intros N H. apply free_in_isfree in H. apply (isfree_tfree_nb e s) in H; auto.
  intros K. apply N. apply bound_in_binds. auto.
Qed.

Section Program.
Variable p : phi.
Hypothesis TD : tidy p.
Notation vis := (visits p).

Lemma elems_psub c size acc init body elem r i : vis (PFold c size acc init body) -> reduces c size acc init body = Some (elem, r) ->
  elems i c size elem = PVec i size (psub [(SV c, p_at i)] elem).
Proof.
  intros V R. destruct (t_red _ TD _ _ _ _ _ _ _ V R) as (N & _). unfold elems. rewrite substitute_psub; auto.
  intros s [<-|[]]. auto.
Qed.

Lemma kid_weight e sc c : vis e -> In (sc, c) (kids e) -> weight c < weight e.
Proof.
  intros V H.
  assert (L : forall ops, In (sc, c) (map (pair []) ops) -> weight c <= list_sum (map weight ops)).
  { intros ops K. apply in_map_iff in K as (o & Q & K). injection Q as <- <-. apply list_sum_In, in_map. auto. }
  destruct e; cbn [kids] in H; try (cbn [In] in H; repeat (destruct H as [H|H]; [injection H as <- <-; simpl; lia|]); destruct H; fail).
  - destruct H as [H|[H|[H|H]]]; try (injection H as <- <-; simpl; lia).
    + injection H as <- <-. pose proof (dim_of_weight e1 0). pose proof (dim_of_weight e2 0). destruct e2; simpl; lia.
    + apply in_map_iff in H as (o & Q & K). injection Q as <- <-. apply shift_parts_ok in K. simpl. lia.
  - destruct (reduces _ _ _ _ _) as [[elem r]|] eqn:R.
    + destruct (smem _ _); [destruct H|]. pose proof (reduces_inv _ _ _ _ _ _ _ R) as (_ & _ & _ & M & _). apply reduction_weight in M.
      destruct H as [H|[H|[]]]; [|injection H as <- <-; simpl; lia].
      rewrite (elems_psub _ _ _ _ _ _ _ _ V R) in H. injection H as <- <-. simpl. rewrite weight_at. lia.
    + destruct H as [H|[H|[H|[]]]]; injection H as <- <-; simpl; lia.
  - destruct H as [H|[H|H]]; try (injection H as <- <-; simpl; lia). apply L in H. simpl. lia.
  - apply L in H. simpl. lia.
Qed.

Lemma kid_free e sc c s : vis e -> In (sc, c) (kids e) -> free_in s c -> free_in s e \/ In s sc.
Proof.
  intros V H F.
  assert (L : forall ops, In (sc, c) (map (pair []) ops) -> fold_right or False (map (free_in s) ops)).
  { intros ops K. apply in_map_iff in K as (o & Q & K). injection Q as <- <-. apply any_Exists. eauto. }
  destruct e; cbn [kids] in H.
  all: try (cbn [In] in H; repeat (destruct H as [H|H]; [injection H as <- <-; simpl; tauto|]); destruct H; fail).
  - destruct H as [H|[H|[]]]; injection H as <- <-; simpl; [tauto|]. destruct (sym_eq_dec s (SV x)); auto.
  - destruct H as [H|[H|[H|H]]]; try (injection H as <- <-; simpl; auto; fail).
    + injection H as <- <-. left. simpl. left. eapply dim_of_free; eauto.
    + apply in_map_iff in H as (o & Q & K). injection Q as <- <-. apply shift_parts_ok in K. left. simpl. right. apply K. auto.
  - destruct H as [H|[H|[]]]; injection H as <- <-; simpl; [tauto|]. destruct (sym_eq_dec s (SX i)); auto.
  - destruct (reduces _ _ _ _ _) as [[elem r]|] eqn:R.
    + destruct (smem _ _) eqn:SA; [destruct H|]. pose proof (reduces_inv _ _ _ _ _ _ _ R) as (_ & _ & _ & M & _).
      destruct H as [H|[H|[]]]; [|injection H as <- <-; simpl; tauto].
      rewrite (elems_psub _ _ _ _ _ _ _ _ V R) in H. injection H as <- <-. simpl in F. left. simpl. destruct F as [F|[F1 F]]; [auto|].
      destruct (t_red _ TD _ _ _ _ _ _ _ V R) as (N1 & N2 & _).
      destruct (free_at _ _ elem N1 _ F) as [[F2 F3]|F2]; [|congruence]. right. right. split; auto. split; [|eapply reduction_free; eauto].
      intros ->. apply free_fsyms in F2; auto. apply smem_In in F2. congruence.
    + destruct H as [H|[H|[H|[]]]]; injection H as <- <-; simpl; auto. destruct (sym_eq_dec s (SV c0)); auto. destruct (sym_eq_dec s (SV acc)); auto. tauto.
  - destruct H as [H|[H|H]]; try (injection H as <- <-; simpl; auto; fail).
    + injection H as <- <-. simpl. destruct (sym_eq_dec s (SV x)); auto. destruct (sym_eq_dec s (SV y)); auto. tauto.
    + apply L in H. left. simpl. auto.
  - apply L in H. left. simpl. auto.
Qed.

(** * Contexts *)

(** [S]: the symbols in scope.  They are bound by heavier terms; indices of the
    context are among them. *)
Record cok (S : sym -> Prop) (idxs : idx_sizes) (vax : var_axes) (e : phi) : Prop := {
  c_vis : vis e;
  c_free : forall s, free_in s e -> S s;
  c_own : forall s, S s -> free_in s p \/ exists n, vis n /\ In s (binds_here n) /\ weight e < weight n;
  c_keys : forall i, In i (map fst idxs) -> S (SX i);
  c_axes : forall i, In i (flat_map snd vax) -> S (SX i);
  c_vars : forall x, In x (map fst vax) -> S (SV x)
}.

Lemma axes_of_In vax x i : In i (axes_of vax x) -> In i (flat_map snd vax).
Proof.
  induction vax as [|[y ax] vax IH]; [intros []|]. rewrite axes_of_cons. simpl. rewrite in_app_iff. destruct (y =? x); auto.
Qed.

Lemma cok_kid S idxs vax e c : cok S idxs vax e -> In ([], c) (kids e) -> cok S idxs vax c.
Proof.
  intros [V F O K A B] H. pose proof (kid_weight _ _ _ V H) as W. split; auto.
  - eapply vis_kid; eauto.
  - intros s Hs. destruct (kid_free _ _ _ s V H Hs) as [Q|[]]. auto.
  - intros s Hs. destruct (O s Hs) as [Q|(n & N1 & N2 & N3)]; auto. right. exists n. split; auto. split; auto. lia.
Qed.

Definition more (S : sym -> Prop) (sc : list sym) (s : sym) : Prop := S s \/ In s sc.

Lemma cok_enter S idxs vax idxs' vax' e sc c : cok S idxs vax e -> In (sc, c) (kids e) ->
  (forall i, In i (map fst idxs') -> more S sc (SX i)) -> (forall i, In i (flat_map snd vax') -> more S sc (SX i)) ->
  (forall x, In x (map fst vax') -> more S sc (SV x)) -> cok (more S sc) idxs' vax' c.
Proof.
  intros [V F O K A B] H K' A' B'. pose proof (kid_weight _ _ _ V H) as W. split; auto.
  - eapply vis_kid; eauto.
  - intros s Hs. destruct (kid_free _ _ _ s V H Hs) as [Q|Q]; [left|right]; auto.
  - intros s [Hs|Hs].
    + destruct (O s Hs) as [Q|(n & N1 & N2 & N3)]; auto. right. exists n. split; auto. split; auto. lia.
    + right. exists e. split; auto. split; auto. unfold binds_here. apply in_flat_map. exists (sc, c). auto.
Qed.

(** Symbols bound by a term are not in scope around it. *)
Lemma cok_new S idxs vax e s : cok S idxs vax e -> In s (binds_here e) -> ~ S s.
Proof.
  intros C H HS. destruct (c_own _ _ _ _ C s HS) as [Q|(n & N1 & N2 & N3)].
  - eapply t_free; eauto. apply (c_vis _ _ _ _ C).
  - assert (n = e) by (eapply t_once; eauto; apply (c_vis _ _ _ _ C)). subst. lia.
Qed.

Lemma axes_of_none vax x : ~ In x (map fst vax) -> axes_of vax x = [].
Proof.
  induction vax as [|[y ax] vax IH]; auto. rewrite axes_of_cons. simpl. destruct (Nat.eqb_spec y x); auto. intros N. tauto.
Qed.

Lemma name_unused S idxs vax e : cok S idxs vax e -> needs_name e = true -> ~ S (SX (name_of orc e)) ->
  new_index orc idxs vax e = name_of orc e.
Proof.
  intros C N NS. unfold new_index. destruct (mem _ _) eqn:M; auto. exfalso. apply mem_In in M. unfold used_indices in M.
  rewrite !in_app_iff in M. destruct M as [M|[M|M]].
  - apply NS. eapply c_keys; eauto.
  - apply NS. eapply c_axes; eauto.
  - apply (t_name _ TD _ (c_vis _ _ _ _ C) N). unfold idx_nums in M. apply in_flat_map in M as ([x|i] & H1 & H2); [destruct H2|].
    destruct H2 as [<-|[]]. auto.
Qed.

Lemma name_fold S idxs vax c size acc init body elem r : let e := PFold c size acc init body in
  cok S idxs vax e -> reduces c size acc init body = Some (elem, r) -> smem (SV acc) (fsyms elem) = false ->
  new_index orc idxs vax e = name_of orc e.
Proof.
  intros e C R NA. eapply name_unused; eauto. intros HS.
  set (q := elems (name_of orc e) c size elem).
  assert (K : In ([], q) (kids e)) by (unfold q, e; cbn [kids]; rewrite R, NA; left; auto).
  assert (C' := cok_kid _ _ _ _ _ C K).
  apply (cok_new _ _ _ _ (SX (name_of orc e)) C'); auto. unfold q, elems, binds_here. simpl. auto.
Qed.
Lemma name_reduce S idxs vax x ax init x1 y xy vecs : let e := PReduce init x1 y xy vecs in
  cok S idxs vax e -> (forall i, In i ax -> S (SX i)) -> new_index orc idxs ((x, ax) :: vax) e = name_of orc e.
Proof.
  intros e C HA. assert (N : ~ S (SX (name_of orc e))).
  { apply (cok_new _ _ _ _ _ C). unfold e, binds_here. simpl. auto. }
  unfold new_index. destruct (mem _ _) eqn:M; auto. exfalso. apply mem_In in M. unfold used_indices in M. simpl in M.
  rewrite !in_app_iff in M. destruct M as [M|[[M|M]|M]].
  - apply N. eapply c_keys; eauto.
  - apply N. auto.
  - apply N. eapply c_axes; eauto.
  - apply (t_name _ TD _ (c_vis _ _ _ _ C) eq_refl). unfold idx_nums in M. apply in_flat_map in M as ([z|i] & H1 & H2); [destruct H2|].
    destruct H2 as [<-|[]]. exact H1.
Qed.

(** * The axes of the result are those of the free symbols *)

Definition closed (F : sym -> Prop) (vax : var_axes) : Prop := forall y i, F (SV y) -> In i (axes_of vax y) -> F (SX i).

Lemma closed_cons F vax x ax (F' : sym -> Prop) : closed F vax -> (forall s, F s -> F' s) ->
  (forall y, F' (SV y) -> F (SV y) \/ y = x) -> (forall i, In i ax -> F' (SX i)) -> closed F' ((x, ax) :: vax).
Proof.
  intros C H1 H2 H3 y i Hy. rewrite axes_of_cons. destruct (Nat.eqb_spec x y) as [->|N]; auto.
  intros Hi. apply H1. destruct (H2 y Hy) as [K|K]; [eapply C; eauto|congruence].
Qed.

Lemma mapM_In {A B} (g : A -> res B) l ys y : mapM g l = Ok ys -> In y ys -> exists x, In x l /\ g x = Ok y.
Proof.
  intros H K. apply mapM_Forall2 in H. induction H as [|x z l ys H1 H2 IH]; [destruct K|].
  destruct K as [<-|K]; [exists x; simpl; auto|]. destruct (IH K) as (x' & A1 & A2). exists x'. simpl. auto.
Qed.

Lemma map_fst_In {A B} (l : list (A * B)) a b : In (a, b) l -> In a (map fst l).
Proof. intros H. apply in_map_iff. exists (a, b). auto. Qed.

Lemma vis_reduce init x y xy vecs s : free_in s xy -> free_in s (PReduce init x y xy vecs) \/ s = SV x \/ s = SV y.
Proof.
  intros H. destruct (sym_eq_dec s (SV x)); auto. destruct (sym_eq_dec s (SV y)); auto. left. simpl. tauto.
Qed.

Lemma go_reach fuel : forall e S idxs vax a (F : sym -> Prop), cok S idxs vax e -> go fl orc fuel idxs vax e = Ok a ->
  (forall s, F s -> S s) -> (forall s, free_in s e -> F s) -> closed F vax -> forall i, In i (ax_axes a) -> F (SX i).
Proof.
  induction fuel as [|fuel IH]; intros e S idxs vax a F CK H FS HF HC; [discriminate|].
  pose proof (c_vis _ _ _ _ CK) as V.
  assert (MK : forall ax y, mk_axial ax y = Ok a -> (forall i, In i ax -> F (SX i)) -> forall i, In i (ax_axes a) -> F (SX i)).
  { intros ax y H0 K. apply mk_axial_inv in H0 as (-> & _). auto. }
  assert (K0 : forall c b, In ([], c) (kids e) -> go fl orc fuel idxs vax c = Ok b -> forall i, In i (ax_axes b) -> F (SX i)).
  { intros c b Hk Hb. eapply IH; [eapply cok_kid; eauto|exact Hb|exact FS| |auto].
    intros s Hs. destruct (kid_free _ _ _ s V Hk Hs) as [Q|[]]. auto. }
  assert (K1 : forall sc c b i' v', In (sc, c) (kids e) -> go fl orc fuel i' v' c = Ok b ->
     (forall i, In i (map fst i') -> more S sc (SX i)) -> (forall i, In i (flat_map snd v') -> more S sc (SX i)) ->
     (forall x, In x (map fst v') -> more S sc (SV x)) -> closed (more F sc) v' -> forall i, In i (ax_axes b) -> more F sc (SX i)).
  { intros sc c b i' v' Hk Hb Hi' Hv' Hx' HC'. eapply IH; [eapply cok_enter; eauto|exact Hb| | |auto].
    - intros s [Hs|Hs]; [left|right]; auto.
    - intros s Hs. destruct (kid_free _ _ _ s V Hk Hs) as [Q|Q]; [left|right]; auto. }
  assert (KX : forall i, In i (map fst idxs) -> S (SX i)) by (apply (c_keys _ _ _ _ CK)).
  assert (AX : forall i, In i (flat_map snd vax) -> S (SX i)) by (apply (c_axes _ _ _ _ CK)).
  assert (VX : forall x, In x (map fst vax) -> S (SV x)) by (apply (c_vars _ _ _ _ CK)).
  assert (AL : forall l, (forall ax, In ax l -> forall i, In i ax -> F (SX i)) -> forall i, In i (alignment l) -> F (SX i)).
  { intros l K i Hi. apply alignment_In in Hi as (ax & Hax & Hi). eauto. }
  destruct e; cbn [go] in H.
  - eapply MK; [eassumption|]. intros ? [].
  - destruct s as [x|j].
    + apply bind_ok in H as (q & _ & H). eapply MK; [eassumption|]. intros i Hi. apply (HC x i); auto. apply HF. reflexivity.
    + apply bind_ok in H as (q & _ & H). eapply MK; [eassumption|]. intros i [<-|[]]. apply HF. reflexivity.
  - apply bind_ok in H as (b & Hb & H). apply bind_ok in H as (q & Hq & H). unfold within in H. eapply MK; [eassumption|].
    assert (B : forall i, In i (ax_axes b) -> F (SX i)) by (eapply K0; [left; reflexivity|eauto]).
    assert (Q : forall i, In i (ax_axes q) -> more F [SV x] (SX i)).
    { eapply (K1 [SV x]); [right; left; reflexivity|exact Hq|left; auto| | |].
      - intros i. simpl. rewrite in_app_iff. intros [K|K]; left; auto.
      - intros y. simpl. intros [<-|K]; [right; simpl; auto|left; auto].
      - eapply closed_cons; [exact HC|left; auto| |left; auto]. intros y [K|[K|[]]]; auto. injection K as ->. auto. }
    intros i Hi. destruct (Q i Hi) as [K|[K|[]]]; auto. discriminate.
  - eapply K0; eauto. left; auto.
  - apply bind_ok in H as (b & Hb & H). apply bind_ok in H as (q & _ & H). eapply MK; [eassumption|]. intros ? [].
  - unfold transform_get in H. apply bind_ok in H as (t & Ht & H). apply bind_ok in H as (rk & _ & H).
    assert (B1 : forall x, In x (ax_axes t) -> F (SX x)) by (eapply K0; [left; reflexivity|eauto]).
    assert (OTH : others fl (go fl orc fuel idxs vax) t rk e2 = Ok a -> forall i, In i (ax_axes a) -> F (SX i)).
    { unfold others. intros K. apply bind_ok in K as (i & Hi & K).
      assert (B2 : forall x, In x (ax_axes i) -> F (SX x)) by (eapply K0; [right; left; reflexivity|eauto]).
      destruct (_ && _).
      - apply bind_ok in K as (q & _ & K). eapply MK; [eassumption|]. intros x Hx. apply in_app_or in Hx as [Hx|Hx]; auto.
      - unfold general_get in K. peel K. eapply MK; [eassumption|]. apply AL. intros ax [<-|[<-|[]]]; auto. }
    change (let* item := go fl orc fuel idxs vax e2 in _) with (others fl (go fl orc fuel idxs vax) t rk e2) in H.
    destruct (use_slice_pads fl); [|auto].
    destruct (match_index_clipped_shift e2) as [[ix [[sh lo] hi]]|] eqn:M; [|auto].
    destruct (smem _ _); [auto|].
    assert (B2 : forall x, In x (ax_axes t ++ [ix]) -> F (SX x)).
    { intros x Hx. apply in_app_or in Hx as [Hx|[<-|[]]]; auto. apply HF. simpl. right.
      unfold match_index_clipped_shift in M. destruct (the_index (free_indices e2)) as [j|] eqn:Q; [|discriminate].
      destruct (match_clipped_shift e2 (SX j)); [|discriminate]. injection M as -> _.
      apply the_index_In in Q. unfold free_indices in Q. apply filter_In in Q as [Q _]. apply free_in_isfree, tfree_isfree. auto. }
    destruct (_ && _).
    + eapply MK; [eassumption|]. auto.
    + peel H. eapply MK; [eassumption|]. auto.
  - apply bind_ok in H as (x & Hx & H). apply bind_ok in H as (y & Hy & H). unfold cons_axial in H. peel H. eapply MK; [eassumption|].
    apply AL. intros ax [<-|[<-|[]]]; eapply K0; eauto; simpl; auto.
  - apply bind_ok in H as (ty & _ & H). destruct ty; try discriminate. apply bind_ok in H as (q & _ & H).
    apply bind_ok in H as (x & Hx & H). unfold slice_tuple in H. peel H. eapply MK; [eassumption|]. eapply K0; eauto; simpl; auto.
  - apply bind_ok in H as (ty & _ & H). destruct ty; try discriminate. apply bind_ok in H as (q & _ & H). apply bind_ok in H as (q' & _ & H).
    apply bind_ok in H as (x & Hx & H). unfold slice_tuple in H. peel H. eapply MK; [eassumption|]. eapply K0; eauto; simpl; auto.
  - (* Vec *)
    apply bind_ok in H as (s & _ & H). apply bind_ok in H as (s' & _ & H). apply bind_ok in H as (b & Hb & H).
    assert (Q : forall x, In x (ax_axes b) -> more F [SX i] (SX x)).
    { eapply (K1 [SX i]); [right; left; reflexivity|exact Hb| |left; auto|left; auto|].
      - intros j. simpl. intros [<-|K]; [right; simpl; auto|left; auto].
      - intros y j [K|[K|[]]] Hj; [left; eauto|discriminate]. }
    destruct (go_axes _ _ _ _ _ _ _ Hb) as [ND _].
    unfold along in H. apply bind_ok in H as (rk & _ & H). apply bind_ok in H as (u & Hu & H).
    apply guard_ok in Hu. apply Nat.leb_le in Hu.
    destruct (index_of i (ax_axes b)) as [q|] eqn:X.
    + apply index_of_Some in X as [X1 X2]. change (map _ (seq 0 _)) with (close_axes (ax_axes b) rk q) in H. eapply MK; [eassumption|].
      intros x Hx. apply close_axes_In in Hx as [Y1 Y2]; auto. destruct (Q x Y1) as [K|[K|[]]]; auto. congruence.
    + apply index_of_None in X. eapply MK; [eassumption|]. intros x Hx. destruct (Q x Hx) as [K|[K|[]]]; auto. injection K as ->. tauto.
  - (* Fold *)
    rewrite (no_einsum_fold _ _ _ _ (t_ein _ TD _ _ _ _ _ V)) in H. cbn [bind] in H.
    apply bind_ok in H as (red & HR & H). destruct red as [ar|].
    { injection H as <-. destruct (use_reductions fl) eqn:UR; [|discriminate]. unfold match_reduction in HR.
      apply bind_ok in HR as (ti & TI & HR).
      destruct (negb (ty_eqb ti (TScalar KFloat)) || _) eqn:Q1; [discriminate|].
      destruct (match_reduction_by_body e3 acc) as [[elem r]|] eqn:M; [|discriminate]. destruct (negb (considerate _ _ _ _ _)) eqn:Q2; [discriminate|].
      assert (R : reduces c e1 acc e2 e3 = Some (elem, r)) by (unfold reduces; rewrite UR, TI, Q1, M, Q2; auto).
      destruct (t_red _ TD _ _ _ _ _ _ _ V R) as (N1 & N2 & N3).
      apply bind_ok in HR as (u1 & G1 & HR). apply guard_ok in G1.
      apply bind_ok in HR as (u2 & _ & HR). apply bind_ok in HR as (v & Hv & HR).
      apply bind_ok in HR as (q & _ & HR). apply bind_ok in HR as (i & _ & HR). apply bind_ok in HR as (i' & _ & HR).
      apply bind_ok in HR as (a' & Ha & HR). injection HR as <-.
      assert (NA : smem (SV acc) (fsyms elem) = false).
      { destruct (smem (SV acc) (fsyms elem)) eqn:SA; auto. destruct N3 as [N3|N3]; [rewrite N3 in G1; discriminate|].
        apply smem_In in SA. tauto. }
      rewrite (name_fold _ _ _ _ _ _ _ _ _ _ CK R NA) in Hv.
      eapply MK; [exact Ha|]. eapply K0; [|exact Hv]. cbn [kids]. rewrite R, NA. left. reflexivity. }
    assert (RN : reduces c e1 acc e2 e3 = None).
    { unfold reduces. destruct (use_reductions fl) eqn:UR; auto. unfold match_reduction in HR.
      apply bind_ok in HR as (ti & TI & HR). rewrite TI.
      destruct (negb (ty_eqb ti (TScalar KFloat)) || _) eqn:Q1; auto.
      destruct (match_reduction_by_body e3 acc) as [[elem r]|] eqn:M; auto. destruct (negb (considerate _ _ _ _ _)) eqn:Q2; auto.
      peel HR. discriminate. }
    apply bind_ok in H as (s & _ & H). apply bind_ok in H as (s' & _ & H). apply bind_ok in H as (i & Hi & H).
    apply bind_ok in H as (b0 & Hb0 & H). peel H. eapply MK; [eassumption|].
    assert (B : forall x, In x (ax_axes i) -> F (SX x)) by (eapply K0; [|eauto]; cbn [kids]; rewrite RN; simpl; auto).
    assert (Q : forall x, In x (ax_axes b0) -> more F [SV c; SV acc] (SX x)).
    { eapply (K1 [SV c; SV acc]); [cbn [kids]; rewrite RN; simpl; auto|exact Hb0|left; auto| | |].
      - intros x. simpl. rewrite in_app_iff. intros [K|K]; left; auto.
      - intros x. simpl. intros [<-|K]; [right; simpl; auto|left; auto].
      - intros y x Hy. rewrite axes_of_cons. destruct (Nat.eqb_spec acc y) as [->|N]; [left; auto|]. intros Hx.
        left. destruct Hy as [Hy|[Hy|[Hy|[]]]]; [eapply HC; eauto| |congruence].
        injection Hy as ->. exfalso. rewrite axes_of_none in Hx; auto. intros K. apply VX in K. revert K.
        apply (cok_new _ _ _ _ _ CK). unfold binds_here. cbn [kids]. rewrite RN. simpl. auto. }
    intros x Hx. destruct (Q x Hx) as [K|[K|[K|[]]]]; auto; discriminate.
  - (* Reduce *)
    apply bind_ok in H as (i & Hi & H). apply bind_ok in H as (vs & Hvs & H). apply bind_ok in H as (b0 & Hb0 & H).
    peel H. eapply MK; [eassumption|].
    set (e := PReduce e1 x y e2 vecs) in *. set (n := name_of orc e).
    assert (HA : forall z, In z (alignment (ax_axes i :: map ax_axes vs)) -> F (SX z)).
    { apply AL. intros ax [<-|Hax].
      - eapply K0; eauto. left. auto.
      - apply in_map_iff in Hax as (v & <- & Hv). destruct (mapM_In _ _ _ _ Hvs Hv) as (o & Ho & Hgo).
        eapply K0; eauto. right. right. apply in_map. auto. }
    assert (Q : forall z, In z (ax_axes b0) -> more F [SV x; SV y] (SX z)).
    { eapply (IH e2 (more S [SV x; SV y; SX n])); [eapply cok_enter; [exact CK| | | |]|exact Hb0| | |].
      - right. left. reflexivity.
      - left. auto.
      - intros z. simpl. rewrite !in_app_iff. intros [K|[K|K]]; left; auto.
      - intros z. simpl. intros [<-|[<-|K]]; [right; simpl; auto..|left; auto].
      - intros s [Hs|Hs]; [left; auto|right]. simpl in Hs |- *. tauto.
      - intros s Hs. destruct (vis_reduce e1 x y e2 vecs s Hs) as [K|[->| ->]]; [left; auto|right; simpl; auto..].
      - intros w z Hw. rewrite !axes_of_cons. destruct (Nat.eqb_spec x w) as [->|N1]; [left; auto|].
        destruct (Nat.eqb_spec y w) as [->|N2]; [left; auto|]. intros Hz. left. destruct Hw as [Hw|[Hw|[Hw|[]]]]; [eapply HC; eauto|congruence..]. }
    intros z Hz. destruct (Q z Hz) as [K|[K|[K|[]]]]; auto; discriminate.
  - assert (K : (exists x, go fl orc fuel idxs vax e = Ok x /\ exists y, mk_axial (ax_axes x) y = Ok a) \/
                exists x y, go fl orc fuel idxs vax e = Ok x /\ mk_axial (alignment [ax_axes x]) y = Ok a).
    { destruct o; try (right; apply bind_ok in H as (x & Hx & H); apply bind_ok in H as (x' & _ & H); eauto; fail).
      left. apply bind_ok in H as (x & Hx & H). eauto. }
    destruct K as [(x & Hx & y & K)|(x & y & Hx & K)]; eapply MK; [exact K| |exact K|]; [|apply AL; intros ax [<-|[]]]; eapply K0; eauto; simpl; auto.
  - apply bind_ok in H as (x & Hx & H). apply bind_ok in H as (y & Hy & H). peel H. eapply MK; [eassumption|].
    apply AL. intros ax [<-|[<-|[]]]; eapply K0; eauto; simpl; auto.
  - apply bind_ok in H as (z & Hz & H). apply bind_ok in H as (x & Hx & H). apply bind_ok in H as (y & Hy & H). peel H. eapply MK; [eassumption|].
    apply AL. intros ax [<-|[<-|[<-|[]]]]; eapply K0; eauto; simpl; auto.
  - apply bind_ok in H as (x & Hx & H). apply bind_ok in H as (y & Hy & H). peel H. eapply MK; [eassumption|].
    apply AL. intros ax [<-|[<-|[]]]; eapply K0; eauto; simpl; auto.
  - apply bind_ok in H as (xs & Hxs & H). peel H. eapply MK; [eassumption|]. apply AL. intros ax Hax.
    apply in_map_iff in Hax as (v & <- & Hv). destruct (mapM_In _ _ _ _ Hxs Hv) as (o & Ho & Hgo).
    eapply K0; eauto. simpl. apply in_map. auto.
Qed.

(** * The context of other symbols does not matter *)

Lemma bind_cong {A B} (x y : res A) (f g : A -> res B) : x = y -> (forall a, x = Ok a -> f a = g a) -> bind x f = bind y g.
Proof. intros <- H. destruct x; cbn [bind]; auto. Qed.

Lemma add_repeats_same r1 r2 l y : (forall q i, In (q, i) l -> assoc i r1 = assoc i r2) -> add_repeats r1 l y = add_repeats r2 l y.
Proof.
  revert y. induction l as [|[q i] l IH]; intros y H; cbn [add_repeats]; auto.
  rewrite (H q i) by (left; auto). destruct (assoc i r2); apply IH; intros; eapply H; right; eauto.
Qed.
Lemma expands_from_In axes into : forall q0 q i, In (q, i) (expands_from axes q0 into) -> In i into.
Proof.
  induction into as [|x into IH]; intros q0 q i; cbn [expands_from]; [intros []|].
  destruct (mem x axes); [intros H; right; eauto|]. intros [H|H]; [left; congruence|right; eauto].
Qed.
Lemma aligned_same a into r1 r2 : (forall i, In i into -> assoc i r1 = assoc i r2) -> aligned a into true r1 = aligned a into true r2.
Proof.
  intros H. assert (AL : forall y, align y (ax_axes a) into true r1 = align y (ax_axes a) into true r2).
  { intros y. unfold align. apply bind_cong; [reflexivity|]. intros _ _. apply bind_cong; [reflexivity|]. intros _ _. apply bind_cong; [reflexivity|]. intros rk _.
    f_equal. apply add_repeats_same. intros q i Hq. apply H. eapply expands_from_In; eauto. }
  unfold aligned. apply bind_cong; [reflexivity|]. intros q _. cbv zeta. rewrite AL. destruct (_ =? 1); auto.
  apply bind_cong; auto. apply mapM_ext. auto.
Qed.
Lemma covers_same r1 r2 axes a : (forall i, In i axes -> assoc i r1 = assoc i r2) -> covers r1 axes a = covers r2 axes a.
Proof.
  intros H. unfold covers. induction axes as [|x axes IH]; auto. cbn [forallb]. rewrite IH by (intros; apply H; right; auto).
  rewrite (H x) by (left; auto). auto.
Qed.

Lemma transform_get_same rec1 rec2 i1 i2 t i : (forall c, In ([], c) (kids (PGet t i)) -> rec1 c = rec2 c) ->
  (forall j, free_in (SX j) i -> assoc j i1 = assoc j i2) -> transform_get fl orc rec1 i1 t i = transform_get fl orc rec2 i2 t i.
Proof.
  intros R A. unfold transform_get. apply bind_cong; [apply R; left; auto|]. intros tg _. apply bind_cong; [reflexivity|]. intros rk _. cbv zeta.
  rewrite (R i) by (simpl; auto).
  destruct (use_slice_pads fl); auto.
  destruct (match_index_clipped_shift i) as [[ix [[sh lo] hi]]|] eqn:M; auto. destruct (smem _ _); auto. destruct (_ && _); auto.
  assert (P : forall o, In o [sh; lo; hi] -> forall q, o = Some q -> rec1 q = rec2 q).
  { intros o Ho q ->. apply R. simpl. right. right. right. apply in_map. unfold shift_parts. rewrite M.
    simpl in Ho. rewrite !in_app_iff. destruct Ho as [->|[->|[->|[]]]]; simpl; auto. }
  assert (J : free_in (SX ix) i).
  { unfold match_index_clipped_shift in M. destruct (the_index (free_indices i)) as [j|] eqn:Q; [|discriminate].
    destruct (match_clipped_shift i (SX j)); [|discriminate]. injection M as -> _.
    apply the_index_In in Q. unfold free_indices in Q. apply filter_In in Q as [Q _]. apply free_in_isfree, tfree_isfree. auto. }
  rewrite (A ix J). apply bind_cong; [reflexivity|]. intros size _. apply bind_cong; [apply R; simpl; auto|]. intros d _.
  apply bind_cong; [reflexivity|]. intros d' _. apply bind_cong; [reflexivity|]. intros ps _.
  assert (O : forall o dflt, In o [sh; lo; hi] ->
    match o with Some e => let* a := rec1 e in normal a | None => Ok dflt end =
    match o with Some e => let* a := rec2 e in normal a | None => Ok dflt end).
  { intros [q|] dflt Ho; auto. rewrite (P _ Ho q eq_refl). auto. }
  apply bind_cong; [apply O; simpl; auto|]. intros sh' _.
  apply bind_cong; [apply O; simpl; auto|]. intros lo' _.
  apply bind_cong; [apply O; simpl; auto|]. auto.
Qed.

Record same (F : sym -> Prop) (i1 : idx_sizes) (v1 : var_axes) (i2 : idx_sizes) (v2 : var_axes) : Prop := {
  s_idx : forall i, F (SX i) -> assoc i i1 = assoc i i2;
  s_var : forall x, F (SV x) -> axes_of v1 x = axes_of v2 x;
  s_closed : closed F v1
}.

Lemma same_idx F i1 v1 i2 v2 i s : same F i1 v1 i2 v2 -> same (more F [SX i]) ((i, s) :: i1) v1 ((i, s) :: i2) v2.
Proof.
  intros [A B C]. split.
  - intros j [H|[H|[]]]; cbn [assoc]; [destruct (_ =? _); auto|]. injection H as ->. rewrite Nat.eqb_refl. auto.
  - intros x [H|[H|[]]]; [auto|discriminate].
  - intros y j [H|[H|[]]] Hj; [left; eauto|discriminate].
Qed.

Lemma axes_of_app bs v x : axes_of (bs ++ v) x = if mem x (map fst bs) then axes_of bs x else axes_of v x.
Proof.
  induction bs as [|[y ax] bs IH]; auto. cbn [app]. rewrite !axes_of_cons. unfold mem in *. cbn [map existsb fst].
  rewrite (Nat.eqb_sym x y). destruct (y =? x); auto.
Qed.
Lemma axes_of_mem bs x i : In i (axes_of bs x) -> exists ax, In (x, ax) bs /\ In i ax.
Proof.
  induction bs as [|[y ax] bs IH]; [intros []|]. rewrite axes_of_cons. destruct (Nat.eqb_spec y x) as [->|N].
  - intros H. exists ax. simpl. auto.
  - intros H. destruct (IH H) as (ax' & A & B). exists ax'. simpl. auto.
Qed.

Lemma same_enter F i1 v1 i2 v2 sc bs : same F i1 v1 i2 v2 ->
  (forall x ax i, In (x, ax) bs -> In i ax -> more F sc (SX i)) ->
  (forall x, In (SV x) sc -> In x (map fst bs) \/ (axes_of v1 x = [] /\ axes_of v2 x = [])) ->
  (forall i, In (SX i) sc -> assoc i i1 = None /\ assoc i i2 = None) ->
  same (more F sc) i1 (bs ++ v1) i2 (bs ++ v2).
Proof.
  intros [A B C] H1 H2 H3. split.
  - intros i [H|H]; auto. destruct (H3 _ H). congruence.
  - intros x H. rewrite !axes_of_app. destruct (mem x (map fst bs)) eqn:M; auto. destruct H as [H|H]; auto.
    destruct (H2 _ H) as [K|[K K']]; [|congruence]. apply mem_In in K. congruence.
  - intros x i H. rewrite axes_of_app. destruct (mem x (map fst bs)) eqn:M.
    + intros Hi. apply axes_of_mem in Hi as (ax & K1 & K2). eauto.
    + intros Hi. destruct H as [H|H]; [left; eauto|]. destruct (H2 _ H) as [K|[K K']]; [apply mem_In in K; congruence|].
      rewrite K in Hi. destruct Hi.
Qed.

Lemma cok_bind S idxs vax e sc c bs : cok S idxs vax e -> In (sc, c) (kids e) ->
  (forall x ax, In (x, ax) bs -> In (SV x) sc) -> (forall x ax i, In (x, ax) bs -> In i ax -> more S sc (SX i)) ->
  cok (more S sc) idxs (bs ++ vax) c.
Proof.
  intros C Hk H1 H2. eapply cok_enter; eauto.
  - intros i Hi. left. eapply c_keys; eauto.
  - intros i. rewrite flat_map_app, in_app_iff. intros [H|H]; [|left; eapply c_axes; eauto].
    apply in_flat_map in H as ([x ax] & A & B). eauto.
  - intros x. rewrite map_app, in_app_iff. intros [H|H]; [|left; eapply c_vars; eauto].
    apply in_map_iff in H as ([y ax] & <- & H). right. eauto.
Qed.
Lemma cok_var S idxs vax e x : cok S idxs vax e -> In (SV x) (binds_here e) -> axes_of vax x = [].
Proof. intros C H. apply axes_of_none. intros K. apply (cok_new _ _ _ _ _ C H). eapply c_vars; eauto. Qed.
Lemma assoc_none {A} i (l : list (nat * A)) : ~ In i (map fst l) -> assoc i l = None.
Proof.
  induction l as [|[j a] l IH]; auto. cbn [assoc map fst]. simpl. intros N. destruct (Nat.eqb_spec i j); [subst; tauto|].
  destruct (Nat.eqb_spec j i); [subst; tauto|]. apply IH. tauto.
Qed.
Lemma cok_idx S idxs vax e i : cok S idxs vax e -> In (SX i) (binds_here e) -> assoc i idxs = None.
Proof. intros C H. apply assoc_none. intros K. apply (cok_new _ _ _ _ _ C H). eapply c_keys; eauto. Qed.

Lemma go_local f1 : forall e f2 (F : sym -> Prop) S1 S2 i1 v1 i2 v2, cok S1 i1 v1 e -> cok S2 i2 v2 e -> same F i1 v1 i2 v2 ->
  (forall s, F s -> S1 s) -> (forall s, F s -> S2 s) -> (forall s, free_in s e -> F s) -> weight e <= f1 -> weight e <= f2 ->
  go fl orc f1 i1 v1 e = go fl orc f2 i2 v2 e.
Proof.
  induction f1 as [|f1 IH]; intros e f2 F S1 S2 i1 v1 i2 v2 C1 C2 SM F1 F2 HF W1 W2; [destruct e; simpl in W1; lia|].
  destruct f2 as [|f2]; [destruct e; simpl in W2; lia|].
  pose proof (c_vis _ _ _ _ C1) as V.
  assert (KW : forall sc c, In (sc, c) (kids e) -> weight c <= f1 /\ weight c <= f2).
  { intros sc c Hk. pose proof (kid_weight _ _ _ V Hk). lia. }
  assert (K0 : forall c, In ([], c) (kids e) -> go fl orc f1 i1 v1 c = go fl orc f2 i2 v2 c).
  { intros c Hk. destruct (KW _ _ Hk). eapply (IH c f2 F S1 S2); auto; [eapply cok_kid; eauto..|].
    intros s Hs. destruct (kid_free _ _ _ s V Hk Hs) as [Q|[]]; auto. }
  assert (K1 : forall sc c i1' v1' i2' v2', In (sc, c) (kids e) -> same (more F sc) i1' v1' i2' v2' ->
     cok (more S1 sc) i1' v1' c -> cok (more S2 sc) i2' v2' c -> go fl orc f1 i1' v1' c = go fl orc f2 i2' v2' c).
  { intros sc c i1' v1' i2' v2' Hk SM' C1' C2'. destruct (KW _ _ Hk).
    eapply (IH c f2 (more F sc) (more S1 sc) (more S2 sc)); auto.
    - intros s [Hs|Hs]; [left|right]; auto.
    - intros s [Hs|Hs]; [left|right]; auto.
    - intros s Hs. destruct (kid_free _ _ _ s V Hk Hs) as [Q|Q]; [left|right]; auto. }
  assert (RE : forall c a, In ([], c) (kids e) -> go fl orc f1 i1 v1 c = Ok a -> forall i, In i (ax_axes a) -> F (SX i)).
  { intros c a Hk Ha. eapply go_reach; [exact (cok_kid _ _ _ _ _ C1 Hk)|exact Ha|exact F1| |apply (s_closed _ _ _ _ _ SM)].
    intros s Hs. destruct (kid_free _ _ _ s V Hk Hs) as [Q|[]]; auto. }
  assert (AL : forall l, (forall ax, In ax l -> forall i, In i ax -> F (SX i)) -> forall i, In i (alignment l) -> F (SX i)).
  { intros l K i Hi. apply alignment_In in Hi as (ax & Hax & Hi). eauto. }
  pose proof (s_idx _ _ _ _ _ SM) as SI.
  assert (K2 : forall sc c bs, In (sc, c) (kids e) -> (forall x ax, In (x, ax) bs -> In (SV x) sc) ->
     (forall x ax i, In (x, ax) bs -> In i ax -> more F sc (SX i)) ->
     go fl orc f1 i1 (bs ++ v1) c = go fl orc f2 i2 (bs ++ v2) c).
  { intros sc c bs Hk B1 B2. assert (BH : forall s, In s sc -> In s (binds_here e)).
    { intros s Hs. unfold binds_here. apply in_flat_map. exists (sc, c). auto. }
    eapply K1; [exact Hk| | |].
    - apply same_enter; auto.
      + intros x Hx. right. split; [eapply (cok_var S1)|eapply (cok_var S2)]; eauto.
      + intros i Hi. split; [eapply (cok_idx S1)|eapply (cok_idx S2)]; eauto.
    - apply (cok_bind S1 i1 v1 e); auto. intros x ax i Hx Hi. destruct (B2 _ _ _ Hx Hi) as [Q|Q]; [left|right]; auto.
    - apply (cok_bind S2 i2 v2 e); auto. intros x ax i Hx Hi. destruct (B2 _ _ _ Hx Hi) as [Q|Q]; [left|right]; auto. }
  destruct e; cbn [go].
  - auto.
  - destruct s as [x|j].
    + rewrite (s_var _ _ _ _ _ SM x); auto. apply HF. reflexivity.
    + rewrite (SI j); auto. apply HF. reflexivity.
  - apply bind_cong; [apply K0; left; auto|]. intros b Hb. apply bind_cong; auto.
    assert (B : forall i, In i (ax_axes b) -> F (SX i)) by (eapply RE; [left; reflexivity|eauto]).
    apply (K2 [SV x] e2 [(x, ax_axes b)]); [simpl; auto| |].
    + intros y ax [H|[]]. injection H as <- <-. simpl. auto.
    + intros y ax i [H|[]] Hi. injection H as <- <-. left. auto.
  - apply K0; left; auto.
  - apply bind_cong; auto. apply K0; left; auto.
  - apply transform_get_same; [auto|]. intros j Hj. apply SI. apply HF. simpl. auto.
  - apply bind_cong; [apply K0; simpl; auto|]. intros x _. apply bind_cong; [apply K0; simpl; auto|]. auto.
  - apply bind_cong; [reflexivity|]. intros ty _. destruct ty; auto. apply bind_cong; [reflexivity|]. intros q _.
    apply bind_cong; [apply K0; simpl; auto|]. auto.
  - apply bind_cong; [reflexivity|]. intros ty _. destruct ty; auto. apply bind_cong; [reflexivity|]. intros q _. apply bind_cong; [reflexivity|]. intros q' _.
    apply bind_cong; [apply K0; simpl; auto|]. auto.
  - apply bind_cong; [apply K0; simpl; auto|]. intros s _. apply bind_cong; [reflexivity|]. intros s' _. apply bind_cong; auto.
    apply (K1 [SX i]); [simpl; auto|apply same_idx; auto| |]; (eapply cok_enter; [eassumption|simpl; auto| | |]).
    + intros j. simpl. intros [<-|K]; [right; simpl; auto|left; eapply (c_keys S1); eauto].
    + intros j Hj. left. eapply (c_axes S1); eauto.
    + intros j Hj. left. eapply (c_vars S1); eauto.
    + intros j. simpl. intros [<-|K]; [right; simpl; auto|left; eapply (c_keys S2); eauto].
    + intros j Hj. left. eapply (c_axes S2); eauto.
    + intros j Hj. left. eapply (c_vars S2); eauto.
  - (* Fold *)
    rewrite !(no_einsum_fold _ _ _ _ (t_ein _ TD _ _ _ _ _ V)). cbn [bind].
    destruct (reduces c e1 acc e2 e3) as [[elem r]|] eqn:R.
    { destruct (reduces_inv _ _ _ _ _ _ _ R) as (UR & TI & FI & M & CS). rewrite UR. unfold match_reduction. rewrite TI. cbn [bind].
      rewrite FI. replace (ty_eqb (TScalar KFloat) (TScalar KFloat)) with true by (symmetry; apply ty_eqb_eq; auto).
      cbn [negb orb is_nil]. rewrite M, CS. cbn [negb].
      destruct (t_red _ TD _ _ _ _ _ _ _ V R) as (N1 & N2 & N3).
      destruct (smem (SV acc) (fsyms elem)) eqn:SA.
      { destruct N3 as [N3|N3]; [|apply smem_In in SA; tauto]. rewrite N3. reflexivity. }
      rewrite (name_fold _ _ _ _ _ _ _ _ _ _ C1 R SA), (name_fold _ _ _ _ _ _ _ _ _ _ C2 R SA).
      cbn [kids] in K0. rewrite R, SA in K0. fold (elems (name_of orc (PFold c e1 acc e2 e3)) c e1 elem).
      rewrite (K0 (elems (name_of orc (PFold c e1 acc e2 e3)) c e1 elem)) by (simpl; auto). rewrite (K0 e2) by (simpl; auto).
      match goal with |- bind ?x _ = bind ?x _ => destruct x as [[ra|]|er] eqn:X end; cbn [bind]; auto. peel X. discriminate. }
    assert (MR : forall rec1 rec2 n1 n2, (if use_reductions fl then match_reduction fl orc rec1 n1 c e1 acc e2 e3 else Ok None) =
      (if use_reductions fl then match_reduction fl orc rec2 n2 c e1 acc e2 e3 else Ok None) /\
      forall ra, (if use_reductions fl then match_reduction fl orc rec1 n1 c e1 acc e2 e3 else Ok None) <> Ok (Some ra)).
    { intros rec1 rec2 n1 n2. unfold reduces in R. destruct (use_reductions fl); [|split; congruence]. unfold match_reduction.
      destruct (typ e2) as [ti|]; cbn [bind]; [|split; congruence]. destruct (_ || _); [split; congruence|].
      destruct (match_reduction_by_body e3 acc) as [[elem r]|]; [|split; congruence].
      destruct (negb _); [split; congruence|discriminate]. }
    apply bind_cong; [apply MR|]. intros red Hred. destruct red as [ra|]; [exfalso; exact (proj2 (MR _ (go fl orc f1 i1 v1) _ 0) _ Hred)|]. clear MR Hred.
    cbn [kids] in *. rewrite R in *.
    apply bind_cong; [apply K0; simpl; auto|]. intros s _. apply bind_cong; [reflexivity|]. intros s' _.
    apply bind_cong; [apply K0; simpl; auto|]. intros i Hi.
    assert (B : forall x, In x (ax_axes i) -> F (SX x)) by (eapply RE; [|exact Hi]; simpl; auto).
    assert (BB : forall ax, (forall x, In x ax -> F (SX x)) ->
      go fl orc f1 i1 ((acc, ax) :: v1) e3 = go fl orc f2 i2 ((acc, ax) :: v2) e3).
    { intros ax Hax. apply (K2 [SV c; SV acc] e3 [(acc, ax)]); [simpl; auto| |].
      - intros y ay [H|[]]. injection H as <- <-. simpl. auto.
      - intros y ay j [H|[]] Hj. injection H as <- <-. left. auto. }
    apply bind_cong; [auto|]. intros b0 Hb0.
    assert (B0 : forall x, In x (ax_axes b0) -> F (SX x)).
    { intros x Hx. assert (Q : more F [SV c; SV acc] (SX x)); [|destruct Q as [Q|[Q|[Q|[]]]]; [auto|discriminate..]].
      revert x Hx. apply (go_reach f1 e3 (more S1 [SV c; SV acc]) i1 ((acc, ax_axes i) :: v1) b0); [|exact Hb0| | |].
      - apply (cok_bind S1 i1 v1 _ [SV c; SV acc] e3 [(acc, ax_axes i)] C1); [simpl kids; cbn [kids]; rewrite R; simpl; auto| |].
        + intros y ay [H|[]]. injection H as <- <-. simpl. auto.
        + intros y ay j [H|[]] Hj. injection H as <- <-. left. auto.
      - intros s0 [Hs|Hs]; [left|right]; auto.
      - intros s0 Hs. destruct (kid_free (PFold c e1 acc e2 e3) [SV c; SV acc] e3 s0 V) as [Q|Q]; auto; [cbn [kids]; rewrite R; simpl; auto|left; auto|right; auto].
      - apply (s_closed (more F [SV c; SV acc]) i1 ((acc, ax_axes i) :: v1) i2 ((acc, ax_axes i) :: v2)). apply (same_enter F i1 v1 i2 v2 [SV c; SV acc] [(acc, ax_axes i)] SM).
        + intros y ay j [H|[]] Hj. injection H as <- <-. left. auto.
        + intros y Hy. right. assert (BH : In (SV y) (binds_here (PFold c e1 acc e2 e3))).
          { unfold binds_here. cbn [kids]. rewrite R. simpl. simpl in Hy. tauto. }
          split; [eapply (cok_var S1)|eapply (cok_var S2)]; eauto.
        + intros j [H|[H|[]]]; discriminate. }
    apply bind_cong; [auto|]. intros b Hb. cbv zeta.
    rewrite (covers_same i1 i2) by auto. apply bind_cong; [reflexivity|]. intros _ _.
    rewrite (aligned_same i (ax_axes b0) i1 i2) by auto. reflexivity.
  - (* Reduce *)
    set (e := PReduce e1 x y e2 vecs) in *.
    apply bind_cong; [apply K0; left; auto|]. intros i Hi.
    apply bind_cong; [apply mapM_ext; intros o Ho; apply K0; right; right; apply in_map; auto|]. intros vs Hvs. cbv zeta.
    assert (HA : forall z, In z (alignment (ax_axes i :: map ax_axes vs)) -> F (SX z)).
    { apply AL. intros ax [<-|Hax].
      - eapply RE; eauto. left. auto.
      - apply in_map_iff in Hax as (v & <- & Hv). destruct (mapM_In _ _ _ _ Hvs Hv) as (o & Ho & Hgo).
        eapply RE; eauto. right. right. apply in_map. auto. }
    set (n := name_of orc e).
    assert (BB : forall ax, (forall z, In z ax -> F (SX z) \/ z = n) ->
      go fl orc f1 i1 ((x, ax) :: (y, ax) :: v1) e2 = go fl orc f2 i2 ((x, ax) :: (y, ax) :: v2) e2).
    { intros ax Hax. apply (K2 [SV x; SV y; SX n] e2 [(x, ax); (y, ax)]); [simpl; auto| |].
      - intros w ay [H|[H|[]]]; injection H as <- <-; simpl; auto.
      - intros w ay j [H|[H|[]]] Hj; injection H as <- <-; (destruct (Hax _ Hj) as [Q| ->]; [left; auto|right; simpl; auto]). }
    apply bind_cong; [auto|]. intros b0 Hb0.
    assert (B0 : forall z, In z (ax_axes b0) -> F (SX z)).
    { intros z Hz. assert (Q : more F [SV x; SV y] (SX z)); [|destruct Q as [Q|[Q|[Q|[]]]]; [auto|discriminate..]].
      revert z Hz. eapply (go_reach f1 e2 (more S1 [SV x; SV y; SX n])); [|exact Hb0| | |].
      - apply (cok_bind S1 i1 v1 _ [SV x; SV y; SX n] e2 [(x, alignment (ax_axes i :: map ax_axes vs)); (y, alignment (ax_axes i :: map ax_axes vs))] C1); [simpl; auto| |].
        + intros w ay [H|[H|[]]]; injection H as <- <-; simpl; auto.
        + intros w ay j [H|[H|[]]] Hj; injection H as <- <-; left; auto.
      - intros s [Hs|Hs]; [left; auto|right]. simpl in Hs |- *. tauto.
      - intros s Hs. destruct (vis_reduce e1 x y e2 vecs s Hs) as [K|[->| ->]]; [left; auto|right; simpl; auto..].
      - intros w z Hw. rewrite !axes_of_cons. destruct (Nat.eqb_spec x w) as [->|N1]; [left; auto|].
        destruct (Nat.eqb_spec y w) as [->|N2]; [left; auto|]. intros Hz. left.
        destruct Hw as [Hw|[Hw|[Hw|[]]]]; [eapply s_closed; eauto|congruence..]. }
    assert (NR1 : new_index orc i1 ((x, ax_axes b0) :: v1) e = n) by (apply (name_reduce S1); auto).
    assert (NR2 : new_index orc i2 ((x, ax_axes b0) :: v2) e = n) by (apply (name_reduce S2); auto). rewrite NR1, NR2.
    apply bind_cong.
    { apply BB. intros z Hz. apply in_app_or in Hz as [Hz|[<-|[]]]; auto. }
    intros b Hb.
    replace (forallb (covers i1 (ax_axes b0)) (i :: vs)) with (forallb (covers i2 (ax_axes b0)) (i :: vs)).
    2:{ clear - B0 SI. induction (i :: vs) as [|v l IHl]; auto. cbn [forallb]. rewrite IHl, (covers_same i1 i2) by auto. auto. }
    apply bind_cong; [reflexivity|]. intros _ _. rewrite (aligned_same i (ax_axes b0) i1 i2) by auto.
    apply bind_cong; [reflexivity|]. intros yi _. apply bind_cong; [|reflexivity].
    apply mapM_ext. intros v _. apply aligned_same. auto.
  - assert (R := K0 e (or_introl eq_refl)). destruct o; rewrite R; auto.
  - apply bind_cong; [apply K0; simpl; auto|]. intros x _. apply bind_cong; [apply K0; simpl; auto|]. auto.
  - apply bind_cong; [apply K0; simpl; auto|]. intros x _. apply bind_cong; [apply K0; simpl; auto|]. intros y _.
    apply bind_cong; [apply K0; simpl; auto|]. auto.
  - apply bind_cong; [apply K0; simpl; auto|]. intros x Hx. apply bind_cong; [apply K0; simpl; auto|]. intros y Hy. cbv zeta.
    assert (U : forall z, In z (alignment [ax_axes x; ax_axes y]) -> F (SX z)).
    { apply AL. intros ax [<-|[<-|[]]]; eapply RE; eauto; simpl; auto. }
    rewrite !(covers_same i1 i2) by auto. apply bind_cong; [reflexivity|]. intros _ _.
    rewrite (aligned_same x _ i1 i2), (aligned_same y _ i1 i2) by auto. reflexivity.
  - apply bind_cong; auto. apply mapM_ext. intros o Ho. apply K0. simpl. apply in_map. auto.
Qed.
End Program.
End Local.
