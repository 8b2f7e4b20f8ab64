(** Renaming all indices of a term, free and bound, by an injective function. *)
From Verif Require Import Base Scalar Tensor Types Sym Phi Den Term PhiTerm DenFree SpecPhi Lining TypesFacts Typing DenWf Naive
  Sizes ClipShift NdOps NdFacts Yarr Axial AxialFacts AxialOps Codegen IndexOps YOps CodegenSafe.

Section Rename.
Context {FO : FloatOps} {EX : Externs}.

(** The indices that occur in a term. *)
Definition sx (s : sym) : list nat := match s with SX i => [i] | SV _ => [] end.
Fixpoint occ (e : phi) : list nat :=
  match e with
  | PConst _ => []
  | PStore s _ => sx s
  | PLet _ a b | PGet a b | PCons a b | PBin _ a b | PConcat a b => occ a ++ occ b
  | PAssertEq t ops => occ t ++ flat_map occ ops
  | PDim t _ | PFirst t | PSecond t | PUn _ t => occ t
  | PVec i a b => i :: occ a ++ occ b
  | PFold _ a _ b c | PWhere a b c => occ a ++ occ b ++ occ c
  | PReduce a _ _ b l => occ a ++ occ b ++ flat_map occ l
  | PExt _ _ ops => flat_map occ ops
  end.

Lemma occ_syms e i : In i (occ e) -> In (SX i) (fsyms e ++ bsyms e).
Proof.
  assert (L : forall ops, Forall (fun e => In i (occ e) -> In (SX i) (fsyms e ++ bsyms e)) ops ->
    In i (flat_map occ ops) -> In (SX i) (flat_map fsyms ops) \/ In (SX i) (flat_map bsyms ops)).
  { intros ops F Hi. apply in_flat_map in Hi as (o & Ho & Hi). rewrite Forall_forall in F. specialize (F o Ho Hi).
    apply in_app_or in F as [F|F]; [left|right]; apply in_flat_map; eauto. }
  assert (SR : forall cs l m, In (SX i) (l ++ m) -> In (SX i) (sremove cs l ++ cs ++ m)).
  { intros cs l m Hi. rewrite !in_app_iff, sremove_In in *. destruct (in_dec sym_eq_dec (SX i) cs); tauto. }
  induction e using phi_ind'; cbn [occ fsyms bsyms]; intros Hi; rewrite ?in_app_iff in *;
    rewrite ?in_app_iff in *; try tauto.
  - destruct s; cbn in Hi; [tauto|]. cbn. destruct Hi as [->|[]]; auto.
  - apply in_app_or. refine (SR [SV x] (fsyms e1 ++ fsyms e2) (bsyms e1 ++ bsyms e2) _). rewrite !in_app_iff.
    destruct Hi as [Hi|Hi]; [apply IHe1 in Hi|apply IHe2 in Hi]; tauto.
  - specialize (L ops H). destruct Hi as [Hi|Hi]; [apply IHe in Hi|apply L in Hi]; tauto.
  - destruct Hi as [->|Hi]; [right; left; reflexivity|]. apply in_app_or.
    refine (SR [SX i0] (fsyms e1 ++ fsyms e2) (bsyms e1 ++ bsyms e2) _). rewrite !in_app_iff in *.
    destruct Hi as [Hi|Hi]; [apply IHe1 in Hi|apply IHe2 in Hi]; tauto.
  - apply in_app_or.
    refine (SR [SV c; SV acc] (fsyms e1 ++ fsyms e2 ++ fsyms e3) (bsyms e1 ++ bsyms e2 ++ bsyms e3) _). rewrite !in_app_iff.
    destruct Hi as [Hi|[Hi|Hi]]; [apply IHe1 in Hi|apply IHe2 in Hi|apply IHe3 in Hi]; tauto.
  - apply in_app_or.
    refine (SR [SV x; SV y] (fsyms e1 ++ flat_map fsyms vecs ++ fsyms e2) (bsyms e1 ++ flat_map bsyms vecs ++ bsyms e2) _).
    rewrite !in_app_iff.
    destruct Hi as [Hi|[Hi|Hi]]; [apply IHe1 in Hi|apply IHe2 in Hi|apply (L vecs H) in Hi]; tauto.
  - auto.
Qed.

Lemma occ_list e : incl (occ e) (flat_map sx (captured e) ++ flat_map sx (unwrap_symbol e) ++ flat_map occ (subterms e)).
Proof.
  intros i. destruct e; cbn; rewrite ?app_nil_r, ?flat_map_app; cbn; rewrite ?app_nil_r, ?in_app_iff; try tauto.
Qed.

Section Fun.
Variable p : nat -> nat.
Hypothesis inj : forall i j, p i = p j -> i = j.

Definition rs (s : sym) : sym := match s with SX i => SX (p i) | SV x => SV x end.
Fixpoint rn (e : phi) : phi :=
  match e with
  | PConst a => PConst a
  | PStore s t => PStore (rs s) t
  | PLet x a b => PLet x (rn a) (rn b)
  | PAssertEq t ops => PAssertEq (rn t) (map rn ops)
  | PDim t a => PDim (rn t) a
  | PGet a b => PGet (rn a) (rn b)
  | PCons a b => PCons (rn a) (rn b)
  | PFirst t => PFirst (rn t)
  | PSecond t => PSecond (rn t)
  | PVec i a b => PVec (p i) (rn a) (rn b)
  | PFold c a acc b d => PFold c (rn a) acc (rn b) (rn d)
  | PReduce a x y b l => PReduce (rn a) x y (rn b) (map rn l)
  | PUn o a => PUn o (rn a)
  | PBin o a b => PBin o (rn a) (rn b)
  | PWhere a b c => PWhere (rn a) (rn b) (rn c)
  | PConcat a b => PConcat (rn a) (rn b)
  | PExt t f ops => PExt t f (map rn ops)
  end.

Lemma rs_inj s r : rs s = rs r -> s = r.
Proof. destruct s, r; cbn; intros E; try discriminate; auto. injection E as E. apply inj in E. congruence. Qed.
Lemma rs_eqb s r : sym_eqb (rs s) (rs r) = sym_eqb s r.
Proof.
  destruct (sym_eqb s r) eqn:Q.
  - apply sym_eqb_eq in Q as ->. apply sym_eqb_eq. reflexivity.
  - apply sym_eqb_neq in Q. apply sym_eqb_neq. intros K. apply Q, rs_inj, K.
Qed.
Lemma rs_eqb_v x r : sym_eqb (rs r) (SV x) = sym_eqb r (SV x).
Proof. exact (rs_eqb r (SV x)). Qed.
Lemma rs_smem s l : smem (rs s) (map rs l) = smem s l.
Proof. unfold smem. induction l as [|r l IH]; cbn; auto. rewrite IH, rs_eqb. reflexivity. Qed.
Lemma rs_sremove cs l : sremove (map rs cs) (map rs l) = map rs (sremove cs l).
Proof.
  unfold sremove. induction l as [|r l IH]; cbn; auto. rewrite rs_smem. destruct (negb _); cbn; rewrite IH; auto.
Qed.
Lemma flat_map_rn {B} (g : phi -> list B) (h : B -> B) ops : Forall (fun e => g (rn e) = map h (g e)) ops ->
  flat_map g (map rn ops) = map h (flat_map g ops).
Proof. induction 1 as [|x l Hx _ IH]; cbn; auto. rewrite map_app, Hx, IH. reflexivity. Qed.

Lemma rn_fsyms e : fsyms (rn e) = map rs (fsyms e).
Proof.
  induction e using phi_ind'; cbn [rn fsyms]; rewrite ?IHe, ?IHe1, ?IHe2, ?IHe3, ?map_app; auto.
  - change [SV x] with (map rs [SV x]). rewrite <- map_app. apply rs_sremove.
  - f_equal. apply flat_map_rn, H.
  - change [SX (p i)] with (map rs [SX i]). rewrite <- map_app. apply rs_sremove.
  - change [SV c; SV acc] with (map rs [SV c; SV acc]). rewrite <- !map_app. apply rs_sremove.
  - rewrite (flat_map_rn fsyms rs vecs H). change [SV x; SV y] with (map rs [SV x; SV y]). rewrite <- !map_app. apply rs_sremove.
  - apply flat_map_rn, H.
Qed.
Lemma rn_bsyms e : bsyms (rn e) = map rs (bsyms e).
Proof.
  induction e using phi_ind'; cbn [rn bsyms map]; rewrite ?IHe, ?IHe1, ?IHe2, ?IHe3, ?map_app; auto.
  - f_equal. apply flat_map_rn, H.
  - rewrite (flat_map_rn bsyms rs vecs H). reflexivity.
  - apply flat_map_rn, H.
Qed.
Lemma rn_occ e : occ (rn e) = map p (occ e).
Proof.
  induction e using phi_ind'; cbn [rn occ map]; rewrite ?IHe, ?IHe1, ?IHe2, ?IHe3, ?map_app; auto.
  - destruct s; reflexivity.
  - f_equal. apply flat_map_rn, H.
  - do 2 f_equal. apply flat_map_rn, H.
  - apply flat_map_rn, H.
Qed.
Lemma rn_free_indices e : free_indices (rn e) = map rs (free_indices e).
Proof.
  unfold free_indices. rewrite rn_fsyms. induction (fsyms e) as [|s l IH]; cbn; auto.
  destruct s; cbn; rewrite IH; reflexivity.
Qed.
Lemma rn_psize e : psize (rn e) = psize e.
Proof.
  assert (L : forall ops, Forall (fun e => psize (rn e) = psize e) ops -> list_sum (map psize (map rn ops)) = list_sum (map psize ops)).
  { induction 1; cbn; auto. }
  induction e using phi_ind'; cbn [rn psize]; rewrite ?IHe, ?IHe1, ?IHe2, ?IHe3, ?L; auto.
Qed.

(** ** Structure *)
Lemma rn_subs e : subterms (rn e) = map rn (subterms e).
Proof. destruct e; cbn; auto. rewrite map_app. reflexivity. Qed.
Lemma last_map {A B} (g : A -> B) l d : last (map g l) (g d) = g (last l d).
Proof. induction l as [|x l IH]; cbn; auto. destruct l; cbn in *; auto. Qed.
Lemma removelast_map {A B} (g : A -> B) l : removelast (map g l) = map g (removelast l).
Proof. induction l as [|x l IH]; cbn; auto. destruct l; cbn in *; auto. rewrite IH. reflexivity. Qed.
Lemma rn_rebuild e cs : phi_rebuild (rn e) (map rn cs) = rn (phi_rebuild e cs).
Proof.
  destruct e; try (destruct cs as [|? [|? [|? [|? ?]]]]; reflexivity).
  destruct cs as [|a l]; [reflexivity|]. cbn [map rn phi_rebuild]. rewrite last_map, removelast_map. reflexivity.
Qed.
Definition rsub (sb : list (sym * phi)) : list (sym * phi) := map (fun q => (rs (fst q), rn (snd q))) sb.
Lemma rsub_fst sb : map fst (rsub sb) = map rs (map fst sb).
Proof. unfold rsub. rewrite !map_map. reflexivity. Qed.
Lemma rsub_assoc s sb : sassoc (rs s) (rsub sb) = option_map rn (sassoc s sb).
Proof.
  unfold sassoc. induction sb as [|[r u] sb IH]; cbn; auto. rewrite rs_eqb. destruct (sym_eqb s r); cbn; auto.
Qed.
Lemma rn_substitute e sb : substitute (rn e) (rsub sb) = rn (substitute e sb).
Proof.
  unfold substitute. cbn [tsize PhiOps]. rewrite rn_psize. generalize (psize e). intros n. revert e.
  induction n as [|n IH]; intros e; cbn [substitute_go]; auto.
  cbn [tfree PhiOps]. rewrite rn_fsyms.
  replace (existsb (fun s => smem s (map fst (rsub sb))) (map rs (fsyms e))) with (existsb (fun s => smem s (map fst sb)) (fsyms e)).
  2:{ rewrite rsub_fst. induction (fsyms e) as [|s l IHl]; cbn; auto. rewrite rs_smem, IHl. reflexivity. }
  destruct (existsb _ (fsyms e)); auto.
  replace (match symof (rn e) with Some s => sassoc s (rsub sb) | None => None end)
    with (option_map rn (match symof e with Some s => sassoc s sb | None => None end)).
  2:{ destruct e; cbn; auto. symmetry. apply rsub_assoc. }
  destruct (match symof e with Some s => sassoc s sb | None => None end); cbn [option_map]; auto.
  cbn [subs rebuild PhiOps]. rewrite rn_subs, map_map, <- rn_rebuild. f_equal. rewrite map_map.
  apply map_ext. intros c. apply IH.
Qed.

Lemma rn_inj e : forall e', rn e = rn e' -> e = e'.
Proof.
  assert (L : forall ops, Forall (fun e => forall e', rn e = rn e' -> e = e') ops -> forall ops', map rn ops = map rn ops' -> ops = ops').
  { induction 1 as [|x l Hx _ IH]; intros [|y m] E; cbn in E; try discriminate; auto. injection E as E1 E2. f_equal; auto. }
  induction e using phi_ind'; intros e'; destruct e'; cbn; intros E; try discriminate; injection E; intros; subst; f_equal; auto.
  - apply rs_inj. auto.
Qed.
Lemma rn_eqb a b : phi_eqb (rn a) (rn b) = phi_eqb a b.
Proof.
  destruct (phi_eqb a b) eqn:Q.
  - apply phi_eqb_eq in Q as ->. apply phi_eqb_eq. reflexivity.
  - destruct (phi_eqb (rn a) (rn b)) eqn:R; auto. apply phi_eqb_eq, rn_inj in R. subst.
    rewrite (proj2 (phi_eqb_eq b b) eq_refl) in Q. discriminate.
Qed.
Lemma rn_dim_of e : forall ax, dim_of (rn e) ax = rn (dim_of e ax).
Proof. induction e using phi_ind'; intros k; cbn; auto. destruct k; reflexivity. Qed.

(** ** Evaluation *)
Definition agree (e : phi) (E E' : env) : Prop :=
  (forall x, E' (SV x) = E (SV x)) /\ forall i, In i (occ e) -> E' (SX (p i)) = E (SX i).

Lemma agree_sub e c E E' : incl (occ c) (occ e) -> agree e E E' -> agree c E E'.
Proof. intros I [H1 H2]. split; auto. Qed.
Lemma agree_v e x v E E' : agree e E E' -> agree e (upd E (SV x) v) (upd E' (SV x) v).
Proof.
  intros [H1 H2]. split.
  - intros y. unfold upd. cbn. destruct (_ =? _); auto.
  - intros i Hi. unfold upd. cbn. auto.
Qed.
Lemma agree_x e i v E E' : agree e E E' -> agree e (upd E (SX i) v) (upd E' (SX (p i)) v).
Proof.
  intros [H1 H2]. split.
  - intros y. unfold upd. cbn. auto.
  - intros j Hj. unfold upd. cbn. destruct (j =? i) eqn:Q.
    + apply Nat.eqb_eq in Q as ->. rewrite Nat.eqb_refl. reflexivity.
    + destruct (p j =? p i) eqn:R; auto. apply Nat.eqb_eq, inj in R. apply Nat.eqb_neq in Q. congruence.
Qed.
Lemma mapM_map {A B C} (g : A -> B) (f : B -> res C) l : mapM f (map g l) = mapM (fun x => f (g x)) l.
Proof. induction l as [|x l IH]; cbn; auto. rewrite IH. reflexivity. Qed.

Ltac ag := eapply agree_sub; [|eassumption]; cbn; auto with datatypes.
Lemma rn_den e : forall E E', agree e E E' -> den E' (rn e) = den E e.
Proof.
  assert (L : forall e E E' ops, Forall (fun e => forall E E', agree e E E' -> den E' (rn e) = den E e) ops ->
    incl (flat_map occ ops) (occ e) -> agree e E E' -> mapM (den E') (map rn ops) = mapM (den E) ops).
  { intros e0 E E' ops F I A. rewrite mapM_map. apply mapM_ext. intros c Hc. rewrite Forall_forall in F. apply F; auto.
    eapply agree_sub; [|exact A]. intros i Hi. apply I, in_flat_map. eauto. }
  induction e using phi_ind'; intros E E' A; cbn [rn den]; auto.
  all: try (rewrite (IHe E E') by ag).
  all: try (rewrite (IHe1 E E') by ag).
  all: auto.
  - destruct s; cbn; [rewrite (proj1 A); auto|]. rewrite (proj2 A); cbn; auto.
  - destruct (den E e1); cbn [bind]; auto. apply IHe2. apply agree_v. eapply agree_sub; [|exact A]. cbn. auto with datatypes.
  - rewrite (fun I => L _ _ _ _ H I A) by (cbn; auto with datatypes). reflexivity.
  - rewrite (IHe2 E E') by ag. reflexivity.
  - rewrite (IHe2 E E') by ag. reflexivity.
  - assert (Hu : forall v, den (upd E' (SX (p i)) v) (rn e2) = den (upd E (SX i) v) e2).
    { intros v. apply IHe2. apply agree_x. eapply agree_sub; [|exact A]. cbn. auto with datatypes. }
    destruct (den E e1); cbn [bind]; auto. destruct (val_int a); cbn [bind]; auto. rewrite Hu.
    destruct (den (upd E (SX i) (vint 0)) e2); cbn [bind]; auto.
    rewrite (mapM_ext _ (fun k => den (upd E (SX i) (vnat k)) e2)) by (intros; apply Hu). reflexivity.
  - destruct (den E e1); cbn [bind]; auto. destruct (val_int a); cbn [bind]; auto.
    rewrite (IHe2 E E') by ag. destruct (den E e2); cbn [bind]; auto.
    apply iter_res_ext. intros j b _. apply IHe3. do 2 apply agree_v. eapply agree_sub; [|exact A]. cbn. auto with datatypes.
  - rewrite (fun I => L _ _ _ _ H I A) by (cbn; auto with datatypes). destruct (mapM (den E) vecs) as [vs|]; cbn [bind]; auto.
    destruct (mapM (fun v => vdim v 0) vs) as [[|n ns]|]; cbn [bind]; auto.
    destruct (guard _ _); cbn [bind]; auto. destruct (den E e1); cbn [bind]; auto. apply iter_res_ext. intros j b _.
    destruct (mapM (fun u => vget u (Z.of_nat j)) vs) as [[|e0 es]|]; cbn [bind]; auto.
    apply IHe2. do 2 apply agree_v. eapply agree_sub; [|exact A]. cbn. auto with datatypes.
  - rewrite (IHe2 E E') by ag. reflexivity.
  - rewrite (IHe2 E E') by ag.
    rewrite (IHe3 E E') by ag. reflexivity.
  - rewrite (IHe2 E E') by ag. reflexivity.
  - rewrite (fun I => L _ _ _ _ H I A) by (cbn; auto with datatypes). reflexivity.
Qed.

(** ** Matching *)
Definition rclip (t : clipped) : clipped :=
  let '(d, lo, hi) := t in (option_map rn d, option_map rn lo, option_map rn hi).

Lemma is_nil_map {A B} (g : A -> B) l : is_nil (map g l) = is_nil l.
Proof. destruct l; reflexivity. Qed.
Lemma rn_add t o : clip_shift_add (option_map rclip t) (rn o) = option_map rclip (clip_shift_add t o).
Proof.
  unfold clip_shift_add. rewrite rn_free_indices, is_nil_map. destruct (negb _); auto.
  destruct t as [[[[d|] [lo|]] [hi|]]|]; reflexivity.
Qed.
Lemma rn_min t o : clip_shift_min (option_map rclip t) (rn o) = option_map rclip (clip_shift_min t o).
Proof.
  unfold clip_shift_min. rewrite rn_free_indices, is_nil_map. destruct (negb _); auto.
  destruct t as [[[[d|] [lo|]] [hi|]]|]; reflexivity.
Qed.
Lemma rn_max t o : clip_shift_max (option_map rclip t) (rn o) = option_map rclip (clip_shift_max t o).
Proof.
  unfold clip_shift_max. rewrite rn_free_indices, is_nil_map. destruct (negb _); auto.
  destruct t as [[[[d|] [lo|]] [hi|]]|]; reflexivity.
Qed.
Lemma rn_neg b : match_negated (rn b) = option_map rclip (match_negated b).
Proof.
  unfold match_negated. change (PUn UNeg (rn b)) with (rn (PUn UNeg b)). rewrite rn_fsyms, is_nil_map.
  destruct (is_nil _); reflexivity.
Qed.
Lemma rn_first a b : first_opt (option_map rclip a) (option_map rclip b) = option_map rclip (first_opt a b).
Proof. destruct a; reflexivity. Qed.
Lemma rn_match e s : match_clipped_shift (rn e) (rs s) = option_map rclip (match_clipped_shift e s).
Proof.
  induction e using phi_ind';
    match goal with |- match_clipped_shift (rn ?e) _ = _ => pose proof (rn_fsyms e) as HF end;
    cbn [rn] in *; cbn [match_clipped_shift]; rewrite HF, is_nil_map; destruct (is_nil _); auto.
  - rewrite rs_eqb. destruct (sym_eqb s s0); reflexivity.
  - destruct o; auto; rewrite IHe1, ?IHe2, ?rn_neg; change (PUn UNeg (rn e2)) with (rn (PUn UNeg e2));
      rewrite ?rn_add, ?rn_min, ?rn_max, rn_first; reflexivity.
Qed.
Lemma rn_the l : the_index (map rs l) = option_map p (the_index l).
Proof.
  destruct l as [|[x|i] l]; cbn [the_index map rs]; auto.
  replace (forallb (sym_eqb (SX (p i))) (map rs l)) with (forallb (sym_eqb (SX i)) l).
  - destruct (forallb _ l); reflexivity.
  - induction l as [|r l IH]; auto. cbn [forallb map]. rewrite IH, <- (rs_eqb (SX i) r). reflexivity.
Qed.
Lemma rn_match_index e :
  match_index_clipped_shift (rn e) = option_map (fun q => (p (fst q), rclip (snd q))) (match_index_clipped_shift e).
Proof.
  unfold match_index_clipped_shift. rewrite rn_free_indices, rn_the. destruct (the_index (free_indices e)) as [i|]; auto.
  cbn [option_map]. change (SX (p i)) with (rs (SX i)). rewrite rn_match. destruct (match_clipped_shift e (SX i)); reflexivity.
Qed.
Lemma rn_store x e : is_store x (rn e) = is_store x e.
Proof. destruct e; cbn; auto. apply rs_eqb_v. Qed.
Lemma rn_reduction body acc :
  match_reduction_by_body (rn body) acc = option_map (fun q => (rn (fst q), snd q)) (match_reduction_by_body body acc).
Proof.
  destruct body; cbn [rn match_reduction_by_body]; auto. destruct o; auto;
    rewrite !rn_store; destruct (is_store acc body1); auto; destruct (is_store acc body2); auto.
Qed.

Definition rdot (d : dot) : dot :=
  mkDot (map (fun q => (fst q, rn (snd q))) (contract d)) (map (map rn) (products d)).
Definition rmap {A B} (g : A -> B) (r : res A) : res B := let* a := r in Ok (g a).

Lemma rn_summation e : match_summation (rn e) = option_map (fun q => let '(c, s, x) := q in (c, rn s, rn x)) (match_summation e).
Proof.
  destruct e; cbn [rn match_summation]; auto. rewrite rn_reduction. destruct (match_reduction_by_body e3 acc) as [[x []]|]; cbn; auto.
  change (PConst (ascalar (SF (f_of_Z 0)))) with (rn (PConst (ascalar (SF (f_of_Z 0))))) at 1. rewrite rn_eqb.
  destruct (phi_eqb _ _); reflexivity.
Qed.
Lemma rdot_keys d : map fst (contract (rdot d)) = map fst (contract d).
Proof. cbn. rewrite map_map. reflexivity. Qed.
Lemma rdot_sum c s d : dot_sum c (rn s) (rdot d) = rmap rdot (dot_sum c s d).
Proof.
  unfold dot_sum. rewrite rdot_keys. destruct (guard _ _); cbn; auto. unfold rdot. cbn. rewrite map_app. reflexivity.
Qed.
Lemma rdot_union a b : union_contract (contract (rdot a)) (contract (rdot b)) = map (fun q => (fst q, rn (snd q))) (union_contract (contract a) (contract b)).
Proof.
  unfold union_contract. rewrite rdot_keys. cbn. rewrite map_app. f_equal.
  induction (contract b) as [|q l IH]; cbn; auto. destruct (negb _); cbn; rewrite IH; reflexivity.
Qed.
Lemma assoc_rn k (l : list (nat * phi)) : assoc k (map (fun q => (fst q, rn (snd q))) l) = option_map rn (assoc k l).
Proof. induction l as [|[k' s] l IH]; cbn; auto. destruct (_ =? _); auto. Qed.
Lemma rdot_agree a b : values_agree (contract (rdot a)) (contract (rdot b)) = values_agree (contract a) (contract b).
Proof.
  unfold values_agree. cbn [rdot contract]. induction (contract a) as [|q l IH]; cbn [map forallb]; auto. rewrite IH. f_equal.
  cbn [fst snd]. rewrite assoc_rn. destruct (assoc (fst q) (contract b)); cbn [option_map]; auto. apply rn_eqb.
Qed.
Lemma rdot_add a b : dot_add (rdot a) (rdot b) = rmap rdot (dot_add a b).
Proof.
  unfold dot_add. rewrite rdot_agree. destruct (guard _ _); cbn [bind rmap]; auto.
  rewrite rdot_union. unfold rdot. cbn. rewrite map_app. reflexivity.
Qed.
Lemma rdot_mul a b : dot_mul (rdot a) (rdot b) = rdot (dot_mul a b).
Proof.
  unfold dot_mul. rewrite rdot_union. unfold rdot. cbn. f_equal.
  induction (products a) as [|x l IH]; cbn; auto. rewrite map_app, IH. f_equal. rewrite !map_map. apply map_ext. intros q.
  rewrite map_app. reflexivity.
Qed.
Lemma rdot_neg a : dot_neg (rdot a) = rdot (dot_neg a).
Proof. unfold dot_neg, rdot. cbn. f_equal. rewrite !map_map. apply map_ext. intros [|x l]; reflexivity. Qed.
Lemma rn_lift e : lift (rn e) = rmap rdot (lift e).
Proof.
  remember (psize e) as n eqn:Hn. assert (Hl : psize e <= n) by lia. clear Hn. revert e Hl.
  induction n as [|n IH]; intros e Hl; [destruct e; cbn in Hl; lia|].
  destruct e; try reflexivity.
  - pose proof (rn_summation (PFold c e1 acc e2 e3)) as Q. cbn [rn] in Q. cbn [rn lift]. rewrite Q.
    clear Q. destruct (match_summation (PFold c e1 acc e2 e3)) as [[[]]|]; cbn [option_map]; [|reflexivity].
    destruct e3; try reflexivity. cbn [rn]. rewrite rn_store. cbn [psize] in Hl.
    destruct (is_store acc e3_1); [rewrite (IH e3_2) by lia; destruct (lift e3_2)|rewrite (IH e3_1) by lia; destruct (lift e3_1)];
      cbn [rmap bind]; auto; apply rdot_sum.
  - cbn [psize] in Hl. destruct o; try reflexivity. cbn [rn lift]. rewrite (IH e) by lia. destruct (lift e); cbn; auto.
    rewrite rdot_neg. reflexivity.
  - cbn [psize] in Hl. destruct o; try reflexivity; cbn [rn lift]; rewrite (IH e1), (IH e2) by lia;
      destruct (lift e1) as [x|]; cbn [bind rmap]; auto;
      destruct (lift e2) as [y|]; cbn [bind rmap]; auto.
    + apply rdot_add.
    + rewrite rdot_neg. apply rdot_add.
    + rewrite rdot_keys.
      replace (existsb (fun q => mem (fst q) (map fst (contract y))) (contract (rdot x)))
        with (existsb (fun q => mem (fst q) (map fst (contract y))) (contract x)).
      * destruct (existsb _ _); cbn; [reflexivity|]. rewrite rdot_mul. reflexivity.
      * cbn. induction (contract x) as [|q l IHl]; cbn; auto. rewrite IHl. reflexivity.
Qed.
End Fun.

Lemma rn_ext p q e : (forall i, In i (occ e) -> p i = q i) -> rn p e = rn q e.
Proof.
  assert (L : forall ops, Forall (fun e => (forall i, In i (occ e) -> p i = q i) -> rn p e = rn q e) ops ->
    (forall i, In i (flat_map occ ops) -> p i = q i) -> map (rn p) ops = map (rn q) ops).
  { intros ops F A. apply map_ext_in. intros c Hc. rewrite Forall_forall in F. apply F; auto. intros i Hi. apply A, in_flat_map. eauto. }
  induction e using phi_ind'; cbn [rn occ]; intros A; f_equal.
  1: destruct s; cbn in *; auto; f_equal; auto.
  all: first [apply IHe | apply IHe1 | apply IHe2 | apply IHe3 | apply L | apply A; left; reflexivity]; auto.
  all: intros j Hj; apply A; rewrite ?in_app_iff; auto.
  all: right; rewrite ?in_app_iff; auto.
Qed.

Lemma rn_id e : rn (fun i => i) e = e.
Proof.
  assert (L : forall ops, Forall (fun e => rn (fun i => i) e = e) ops -> map (rn (fun i => i)) ops = ops).
  { induction 1; cbn; f_equal; auto. }
  induction e using phi_ind'; cbn [rn]; f_equal; auto. destruct s; reflexivity.
Qed.

(** Renaming can be chosen at indices that do not occur yet. *)
Definition swap (a b i : nat) : nat := if i =? a then b else if i =? b then a else i.
Lemma swap_inj a b i j : swap a b i = swap a b j -> i = j.
Proof.
  unfold swap. destruct (i =? a) eqn:A, (j =? a) eqn:B, (i =? b) eqn:C, (j =? b) eqn:D;
    rewrite ?Nat.eqb_eq, ?Nat.eqb_neq in *; congruence.
Qed.
Lemma extend (p : nat -> nat) (ks : list nat) : (forall i j, p i = p j -> i = j) -> forall is0 is, NoDup is0 -> NoDup is -> length is = length is0 ->
  (forall i, In i is0 -> ~ In i ks) -> (forall i, In i is -> ~ In i (map p ks)) ->
  exists q, (forall i j, q i = q j -> i = j) /\ (forall i, In i ks -> q i = p i) /\ map q is0 = is.
Proof.
  intros inj. induction is0 as [|a is0 IH]; intros [|b is] N0 N1 L D0 D1; try discriminate.
  - exists p. auto.
  - inversion N0; inversion N1; subst. cbn in L. injection L as L.
    destruct (IH is) as (q & Q1 & Q2 & Q3); auto with datatypes.
    exists (fun i => swap (q a) b (q i)). split; [|split].
    + intros i j E. apply swap_inj, Q1 in E. exact E.
    + intros i Hi. rewrite (Q2 i Hi). unfold swap. destruct (p i =? q a) eqn:A.
      { apply Nat.eqb_eq in A. rewrite <- (Q2 i Hi) in A. apply Q1 in A. subst. exfalso. apply (D0 a); auto with datatypes. }
      destruct (p i =? b) eqn:B; auto. apply Nat.eqb_eq in B. exfalso. apply (D1 b); [auto with datatypes|]. rewrite <- B.
      apply in_map. exact Hi.
    + cbn. unfold swap at 1. rewrite Nat.eqb_refl. f_equal. rewrite <- Q3. apply map_ext_in. intros i Hi. unfold swap.
      destruct (q i =? q a) eqn:A; [apply Nat.eqb_eq, Q1 in A; congruence|].
      destruct (q i =? b) eqn:B; auto. apply Nat.eqb_eq in B. exfalso. apply H5. rewrite <- B, <- Q3. apply in_map. exact Hi.
Qed.

Lemma occ_substitute (e : phi) sb : incl (occ (substitute e sb)) (occ e ++ flat_map (fun q => occ (snd q)) sb).
Proof.
  unfold substitute. generalize (tsize e). intros n. revert e. induction n as [|n IH]; intros e; cbn [substitute_go]; [auto with datatypes|].
  destruct (existsb _ (tfree e)); [|auto with datatypes].
  destruct (match symof e with Some s => sassoc s sb | None => None end) as [u|] eqn:Q.
  - destruct (symof e) as [s|]; [|discriminate]. unfold sassoc in Q. destruct (find _ sb) as [[r u']|] eqn:F; [|discriminate].
    injection Q as <-. apply find_some in F as [F _]. intros i Hi. apply in_or_app. right. apply in_flat_map. eauto.
  - clear Q. change (rebuild e (map (substitute_go n sb) (subs e))) with (phi_rebuild e (map (substitute_go n sb) (subterms e))).
    rewrite <- pmap_rebuild. set (g := substitute_go n sb) in *. set (X := flat_map _ sb) in *. clearbody g X.
    assert (L : forall i ops, In i (flat_map occ (map g ops)) -> In i (flat_map occ ops) \/ In i X).
    { intros i ops Hi. apply in_flat_map in Hi as (o & Ho & Hi). apply in_map_iff in Ho as (o' & <- & Ho).
      apply IH, in_app_or in Hi as [Hi|Hi]; auto. left. apply in_flat_map. eauto. }
    assert (I : forall i c, In i (occ (g c)) -> In i (occ c) \/ In i X).
    { intros i c Hi. apply in_app_or, IH, Hi. }
    intros i. destruct e; cbn [pmap occ]; rewrite ?in_app_iff; cbn [In]; rewrite ?in_app_iff; intros Hi;
      repeat match goal with
      | K : _ \/ _ |- _ => destruct K as [K|K]
      | K : In i (occ (g _)) |- _ => apply I in K
      | K : In i (flat_map occ (map g _)) |- _ => apply L in K
      end; auto 6.
Qed.

(** A sum of products has the indices of the term. *)
Lemma lift_occ e : forall d, lift e = Ok d ->
  (forall q, In q (contract d) -> incl (occ (snd q)) (occ e)) /\
  (forall args a, In args (products d) -> In a args -> incl (occ a) (occ e)).
Proof.
  remember (psize e) as n eqn:Hn. assert (Hl : psize e <= n) by lia. clear Hn. revert e Hl.
  assert (P : forall e, (forall q, In q (contract (dot_pure e)) -> incl (occ (snd q)) (occ e)) /\
    (forall args a, In args (products (dot_pure e)) -> In a args -> incl (occ a) (occ e))).
  { intros e. split; [intros q []|]. intros args a [<-|[]] [<-|[]]. apply incl_refl. }
  assert (U : forall (A B : list (nat * phi)) q, In q (union_contract A B) -> In q A \/ In q B).
  { intros A B q Hq. unfold union_contract in Hq. apply in_app_or in Hq as [Hq|Hq]; auto. apply filter_In in Hq as [Hq _]. auto. }
  assert (W : forall y o (args : list (list phi)), True -> (forall args' a, In args' (products y) -> In a args' -> incl (occ a) o) ->
    forall args' a, In args' (products (dot_neg y)) -> In a args' -> incl (occ a) o).
  { intros y o _ _ H args' a Ha Hi. cbn in Ha. apply in_map_iff in Ha as ([|x l] & <- & Ha); [destruct Hi|].
    destruct Hi as [<-|Hi]; [exact (H _ x Ha (or_introl eq_refl))|apply (H _ a Ha (or_intror Hi))]. }
  induction n as [|n IH]; intros e Hl d H; [destruct e; cbn in Hl; lia|].
  destruct e; try (injection H as <-; apply P).
  - cbn [lift] in H. destruct (match_summation _) as [[[]]|]; [|injection H as <-; apply P].
    destruct e3; try (injection H as <-; apply P). cbn [psize] in Hl. apply bind_ok in H as (d0 & H0 & H).
    unfold dot_sum in H. apply bind_ok in H as (_ & _ & H). injection H as <-. cbn [contract products].
    assert (Q : exists t, lift t = Ok d0 /\ psize t <= n /\ incl (occ t) (occ e3_1 ++ occ e3_2)).
    { destruct (is_store acc e3_1); [exists e3_2|exists e3_1]; repeat split; auto with datatypes; lia. }
    destruct Q as (t & Q1 & Q2 & Q3). destruct (IH t Q2 _ Q1) as [R1 R2]. cbn [occ]. split.
    + intros q Hq. apply in_app_or in Hq as [Hq|[<-|[]]]; [|cbn; auto with datatypes].
      eapply incl_tran; [apply R1; exact Hq|]. auto with datatypes.
    + intros args a Ha Hi. eapply incl_tran; [eapply R2; eauto|]. auto with datatypes.
  - destruct o; try (injection H as <-; apply P). cbn [lift] in H. apply bind_ok in H as (d0 & H0 & H). injection H as <-.
    cbn [psize] in Hl. destruct (IH e ltac:(lia) _ H0) as [R1 R2]. cbn [occ]. split; [exact R1|]. apply W; auto. exact [].
  - cbn [psize] in Hl. destruct o; try (injection H as <-; apply P); cbn [lift] in H;
      apply bind_ok in H as (x & Hx & H); apply bind_ok in H as (y & Hy & H);
      destruct (IH e1 ltac:(lia) _ Hx) as [X1 X2]; destruct (IH e2 ltac:(lia) _ Hy) as [Y1 Y2].
    + unfold dot_add in H. apply bind_ok in H as (_ & _ & H). injection H as <-. cbn [contract products occ]. split.
      * intros q Hq. apply U in Hq as [Hq|Hq]; auto with datatypes.
      * intros args a Ha Hi. apply in_app_or in Ha as [Ha|Ha]; eauto with datatypes.
    + unfold dot_add in H. apply bind_ok in H as (_ & _ & H). injection H as <-. cbn [contract products occ]. split.
      * intros q Hq. apply U in Hq as [Hq|Hq]; auto with datatypes.
      * intros args a Ha Hi. apply in_app_or in Ha as [Ha|Ha]; [eauto with datatypes|].
        apply incl_appr. apply (W y (occ e2) [] I Y2 args a Ha Hi).
    + destruct (existsb _ _); injection H as <-; [apply P|]. cbn [contract products occ dot_mul]. split.
      * intros q Hq. apply U in Hq as [Hq|Hq]; auto with datatypes.
      * intros args a Ha Hi. apply in_flat_map in Ha as (u & Hu & Ha). apply in_map_iff in Ha as (w & <- & Hw).
        apply in_app_or in Hi as [Hi|Hi]; eauto with datatypes.
Qed.
End Rename.
