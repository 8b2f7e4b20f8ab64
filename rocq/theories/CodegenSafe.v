(** Side conditions of the translation and their laws. *)
From Verif Require Import Base Scalar Tensor Types Sym Phi Den Term PhiTerm DenFree SpecPhi Lining TypesFacts Typing DenWf Naive
  Sizes ClipShift NdOps NdFacts Yarr Axial AxialFacts AxialOps Codegen IndexOps YOps.

Section Safe.
Context {FO : FloatOps} {EX : Externs}.
Variable fl : flags.
Variable orc : oracle.
(** where the backend's pad is the reference pad: the element kinds, and whether
    arrays without elements are included *)
Variable padk : kind -> bool.
Variable pade : bool.

Definition dval (E : env) (e : phi) : val := match den E e with Ok v => v | Err _ => vint 0 end.

Lemma dval_ok E e v : den E e = Ok v -> dval E e = v.
Proof. unfold dval. intros ->. reflexivity. Qed.
Lemma den_dval E e : (exists v, den E e = Ok v) -> den E e = Ok (dval E e).
Proof. intros (v & H). rewrite (dval_ok _ _ _ H). auto. Qed.

Definition fold_env (E : env) (c acc k : nat) (v : val) : env := upd (upd E (SV acc) v) (SV c) (vnat k).

(** The value of the accumulator before iteration [k]. *)
Definition acc_val (E : env) (c acc : nat) (init body : phi) (k : nat) : res val :=
  let* v0 := den E init in iter_res (fun k v => den (fold_env E c acc k v) body) 0 k v0.

(** Row [k] of the vectors of a reduction, and the environment that combines two
    values. *)
Definition row_of (vs : list val) (k : nat) : res val :=
  let* es := mapM (fun u => vget u (Z.of_nat k)) vs in
  match es with [] => Err EType | e0 :: es' => Ok (fold_left VPair es' e0) end.
Definition red_env (E : env) (x y : nat) (v w : val) : env := upd (upd E (SV x) v) (SV y) w.

(** The values a reduction can come across in any order of evaluation. *)
Inductive combined (E : env) (init : phi) (x y : nat) (xy : phi) (vecs : list phi) : val -> Prop :=
| comb_init v : den E init = Ok v -> combined E init x y xy vecs v
| comb_row vs n k v : mapM (den E) vecs = Ok vs -> Forall (fun u => vdim u 0 = Ok n) vs -> k < n ->
    row_of vs k = Ok v -> combined E init x y xy vecs v
| comb_op a b v : combined E init x y xy vecs a -> combined E init x y xy vecs b ->
    den (red_env E x y a b) xy = Ok v -> combined E init x y xy vecs v.

(** What a reduction needs: on the values it comes across, an operation that is
    defined and associative and has the initial value as identity. *)
Definition reduce_safe (E : env) (init : phi) (x y : nat) (xy : phi) (vecs : list phi) : Prop :=
  let op a b := den (red_env E x y a b) xy in
  let M := combined E init x y xy vecs in
  (forall a b, M a -> M b -> exists v, op a b = Ok v) /\
  (forall a b c u v, M a -> M b -> M c -> op a b = Ok u -> op b c = Ok v -> op a v = op u c) /\
  (forall e0 a, den E init = Ok e0 -> M a -> op e0 a = Ok a /\ op a e0 = Ok a).

(** What an access [t[i]] needs.  The target has an element, unless the access
    is compiled to the target itself, which needs the size of the index to be
    the size of the target where all indices in scope are 0; accesses compiled to slices and pads also need a
    non-empty index, in-range explicit bounds, and a pad that works on the
    array.  ([N] is 1 at indices that are not in scope.) *)
Definition get_safe (N : nat -> nat) (E : env) (t i : phi) : Prop :=
  forall v n, den E t = Ok v -> vdim v 0 = Ok n ->
    match (if use_slice_pads fl then match_index_clipped_shift i else None) with
    | Some (index, (shift, low, high)) =>
        if smem (SX index) (free_indices t) then 1 <= n
        else if use_slice_elision fl && (is_none shift && is_none low && is_none high)
                && eq_index orc index (dim_of t 0)
        then (forall j u, E (SX j) = Some u -> u = vint 0) -> N index = n
        else 1 <= n /\ 1 <= N index /\
             (forall a, v = VArr a -> padk (akind a) = true /\
                (pade = true \/ ((forall j, 1 <= N j) /\ Forall (lt 0) (ashape a)))) /\
             (forall e z, low = Some e -> den_int E e z -> (0 <= z)%Z) /\
             (forall e z, high = Some e -> den_int E e z -> (0 <= z <= Z.of_nat n - 1)%Z)
    | None => 1 <= n
    end.

Fixpoint set_asgs (N : nat -> nat) (is ns : list nat) : nat -> nat :=
  match is, ns with
  | i :: is, n :: ns => set_asg (set_asgs N is ns) i n
  | _, _ => N
  end.
(** The environment with the given indices at the given positions. *)
Fixpoint bind_idx (E : env) (is ks : list nat) : env :=
  match is, ks with
  | i :: is, k :: ks => upd (bind_idx E is ks) (SX i) (vnat k)
  | _, _ => E
  end.

(** Everything evaluated on the way is within the fragment where the array code
    and the reference agree: sizes are not negative, accesses satisfy
    [get_safe].  [N] gives the sizes of the indices in scope.  Empty
    comprehensions are looked at with the index at 0.

    A loop that matches a reduction may be compiled as the comprehension of its
    summands, with any unused index; it needs that to be safe and defined, and
    an element in a minimum or maximum.  A reduction is compiled with the body
    applied to many rows at once, along an unused index.  A loop that lifts to sums of products
    may be compiled factor by factor, with unused indices for the counters. *)
Fixpoint safe (f : nat) (N : nat -> nat) (E : env) (e : phi) {struct f} : Prop :=
  match f with
  | 0 => True
  | S f =>
      match e with
      | PConst _ | PStore _ _ => True
      | PLet x b body => safe f N E b /\ forall v, den E b = Ok v -> safe f N (upd E (SV x) v) body
      | PAssertEq t _ => safe f N E t
      | PDim t _ => safe f N E t
      | PGet t i => safe f N E t /\ safe f N E i /\ get_safe N E t i
      | PCons a b => safe f N E a /\ safe f N E b
      | PFirst t | PSecond t => safe f N E t
      | PVec i size body =>
          safe f N E size /\
          forall v z, den E size = Ok v -> val_int v = Ok z ->
            (0 <= z)%Z /\
            forall k, k < Nat.max 1 (Z.to_nat z) ->
              safe f (set_asg N i (Z.to_nat z)) (upd E (SX i) (vnat k)) body
      | PFold c size acc init body =>
          safe f N E size /\ safe f N E init /\
          (forall v z k w, den E size = Ok v -> val_int v = Ok z -> k < Z.to_nat z ->
            acc_val E c acc init body k = Ok w ->
            safe f N (fold_env E c acc k w) body) /\
          (use_reductions fl = true ->
           forall index elem r, match_reduction_by_body body acc = Some (elem, r) ->
             ~ In (SX index) (fsyms e ++ bsyms e) ->
             let vec := PVec index size (substitute elem [(SV c, p_at index)]) in
             safe f N E vec /\ (exists v, den E vec = Ok v) /\
             forall v z, r <> RAdd -> den E size = Ok v -> val_int v = Ok z -> (1 <= z)%Z) /\
          (use_einsum fl = true ->
           forall d is, lift e = Ok d -> length is = length (contract d) -> NoDup is ->
             (forall i, In i is -> ~ In (SX i) (fsyms e ++ bsyms e)) ->
             Forall (fun p => safe f N E (snd p) /\ exists z, den_int E (snd p) z /\ (0 <= z)%Z) (contract d) /\
             forall ns ks, Forall2 (fun p n => den_int E (snd p) (Z.of_nat n)) (contract d) ns ->
               Forall2 (fun k n => k < Nat.max 1 n) ks ns ->
               forall args a, In args (products d) -> In a args ->
                 let a' := substitute a (combine (map (fun p => SV (fst p)) (contract d)) (map p_at is)) in
                 let E' := bind_idx E is ks in
                 safe f (set_asgs N is ns) E' a' /\ exists v, den E' a' = Ok v)
      | PReduce init x y xy vecs =>
          safe f N E init /\ Forall (safe f N E) vecs /\ reduce_safe E init x y xy vecs /\
          forall a b t m, combined E init x y xy vecs a -> combined E init x y xy vecs b ->
            ~ In (SX t) (fsyms e ++ bsyms e) -> 1 <= m ->
            safe f (set_asg N t m) (red_env E x y a b) xy
      | PUn _ a => safe f N E a
      | PBin _ a b => safe f N E a /\ safe f N E b
      | PWhere c a b => safe f N E c /\ safe f N E a /\ safe f N E b
      | PConcat a b => safe f N E a /\ safe f N E b
      | PExt _ _ ops => Forall (safe f N E) ops
      end
  end.

Definition safe_all (N : nat -> nat) (E : env) (e : phi) : Prop := forall f, safe f N E e.

(** The symbols in scope. *)
Definition in_scope (X I : list nat) : list sym := map SV X ++ map SX I.

Lemma in_scope_v X I x : In (SV x) (in_scope X I) <-> In x X.
Proof.
  unfold in_scope. rewrite in_app_iff, !in_map_iff. split.
  - intros [(y & H & Hy)|(y & H & Hy)]; congruence.
  - intros H. left. eauto.
Qed.
Lemma in_scope_x X I i : In (SX i) (in_scope X I) <-> In i I.
Proof.
  unfold in_scope. rewrite in_app_iff, !in_map_iff. split.
  - intros [(y & H & Hy)|(y & H & Hy)]; congruence.
  - intros H. right. eauto.
Qed.

(** * The context of the translation *)

(** [idxs] holds the sizes of the indices in scope, [vax] the axes of the
    variables in scope, [r] and [E s] their values.  An axis that is not an index
    in scope is that of the rows of a reduction (phi_to_yarr.py:206). *)
Record ctx {PO : PadOps} (N : nat -> nat) (I X : list nat) (r : yenv) (idxs : idx_sizes) (vax : var_axes)
  (E : asg -> env) (G : tctx) : Prop := {
  c_idx : forall i, In i I -> G (SX i) <> None -> exists y, assoc i idxs = Some y /\ yok X r y [ascalar (SI (Z.of_nat (N i)))];
  c_loc : forall s s', (forall i, In i I -> s i = s' i) -> E s = E s';
  c_batch : forall i, In i I -> G (SX i) = None -> assoc i idxs = None /\ In i (flat_map snd vax);
  c_at : forall s i, wv N I s -> In i I -> G (SX i) <> None -> E s (SX i) = Some (vnat (s i));
  c_var : forall x, In x X -> exists l V, r (SV x) = Some (pack l) /\
            (forall s, wv N I s -> E s (SV x) = Some (V s)) /\ vrep N I (axes_of vax x) l V;
  c_new : forall x, ~ In x X -> axes_of vax x = [];
  c_dom : forall s, G s <> None -> In s (in_scope X I);
  c_typ : forall s, wv N I s -> env_typed G (E s);
  c_only : forall s i, E s (SX i) <> None -> In i I /\ G (SX i) <> None
}.

(** A term that can be translated: typed, unambiguous binders, and safe and
    defined at every position. *)
Record good (G : tctx) (N : nat -> nat) (I X : list nat) (E : asg -> env) (e : phi) : Prop := {
  g_typ : exists t, typ e = Ok t;
  g_sc : scoped G e;
  g_int : int_indices e;
  g_ext : exts_ok e;
  g_fb : fresh_binders (in_scope X I) e;
  g_safe : forall s, wv N I s -> safe_all N (E s) e;
  g_den : forall s, wv N I s -> exists v, den (E s) e = Ok v
}.

Lemma fresh_binders_sub (e : phi) : forall X X', fresh_binders X e -> (forall s, In s X' -> In s X) -> fresh_binders X' e.
Proof.
  assert (C : forall (X X' : list sym) s, (forall r, In r X' -> In r X) -> forall r, In r (s :: X') -> In r (s :: X)).
  { intros X X' s H r [->|Hr]; [left|right]; auto. }
  induction e using phi_ind'; intros X X' FB HX; simpl in *; rewrite ?all_and_Forall in *;
    repeat match goal with H : _ /\ _ |- _ => destruct H end;
    repeat (match goal with |- _ /\ _ => split | |- True => exact I end); eauto;
    try (apply Forall_forall; intros o Ho; rewrite Forall_forall in *; eauto; fail).
  all: try (match goal with IH : forall X X', fresh_binders X ?b -> _ -> fresh_binders X' ?b |- fresh_binders _ ?b =>
    eapply IH; [eassumption|]; eauto 10 end).
  all: intros r0 Hr0; simpl in *; firstorder.
Qed.

Lemma scoped_free G (e : phi) : forall s, scoped G e -> In s (fsyms e) -> G s <> None.
Proof.
  revert G. induction e using phi_ind'; intros G q HS Hq; simpl in HS, Hq; rewrite ?all_and_Forall in HS;
    rewrite ?in_app_iff in Hq.
  - destruct Hq.
  - destruct Hq as [<-|[]]. congruence.
  - destruct HS as (S1 & tb & _ & S2). apply sremove_In in Hq as [Hq Hn].
    apply in_app_or in Hq as [Hq|Hq]; [eapply IHe1; eauto|].
    specialize (IHe2 _ _ S2 Hq). intros K. apply IHe2. rewrite upd_neq; auto. intros ->.
    apply Hn. simpl; auto.
  - destruct HS as [S1 S2]. destruct Hq as [Hq|Hq]; [eauto|]. apply in_flat_map in Hq as (o & Ho & Hq).
    rewrite Forall_forall in H, S2. eapply H; eauto.
  - eauto.
  - destruct HS, Hq; eauto.
  - destruct HS, Hq; eauto.
  - eauto.
  - eauto.
  - destruct HS as (S1 & S2). apply sremove_In in Hq as [Hq Hn].
    apply in_app_or in Hq as [Hq|Hq]; [eapply IHe1; eauto|].
    specialize (IHe2 _ _ S2 Hq). intros K. apply IHe2. rewrite upd_neq; auto. intros ->.
    apply Hn. simpl; auto.
  - destruct HS as (S1 & S2 & ti & _ & S3). apply sremove_In in Hq as [Hq Hn].
    rewrite !in_app_iff in Hq. destruct Hq as [Hq|[Hq|Hq]]; [eapply IHe1; eauto|eapply IHe2; eauto|].
    specialize (IHe3 _ _ S3 Hq). intros K. apply IHe3.
    rewrite !upd_neq; auto; intros ->; apply Hn; simpl; auto.
  - destruct HS as (S1 & S2 & ti & _ & S3). apply sremove_In in Hq as [Hq Hn].
    rewrite !in_app_iff in Hq. destruct Hq as [Hq|[Hq|Hq]]; [eapply IHe1; eauto| |].
    + apply in_flat_map in Hq as (o & Ho & Hq). rewrite Forall_forall in H, S2. eapply H; eauto.
    + specialize (IHe2 _ _ S3 Hq). intros K. apply IHe2.
      rewrite !upd_neq; auto; intros ->; apply Hn; simpl; auto.
  - eauto.
  - destruct HS, Hq; eauto.
  - destruct HS as (? & ? & ?), Hq as [?|[?|?]]; eauto.
  - destruct HS, Hq; eauto.
  - apply in_flat_map in Hq as (o & Ho & Hq). rewrite Forall_forall in H, HS. eapply H; eauto.
Qed.

(** Laws of [good]. *)
Section Good.
Context {PO : PadOps}.
Variables (N : nat -> nat) (I X : list nat) (r : yenv) (idxs : idx_sizes) (vax : var_axes) (E : asg -> env) (G : tctx).
Hypothesis C : ctx N I X r idxs vax E G.
Notation good := (good G N I X E).

Lemma good_den e s : good e -> wv N I s -> den (E s) e = Ok (dval (E s) e).
Proof. intros H Hs. apply den_dval. apply H; auto. Qed.

Lemma good_typed e t s : good e -> typ e = Ok t -> wv N I s -> has_type (dval (E s) e) t.
Proof.
  intros H T Hs. pose proof (type_sound e G (E s) t T (g_sc _ _ _ _ _ _ H) (g_int _ _ _ _ _ _ H) (g_ext _ _ _ _ _ _ H)
    (c_typ _ _ _ _ _ _ _ _ C s Hs)) as Q.
  rewrite (good_den e s H Hs) in Q. exact Q.
Qed.

Lemma typed_scalar v k : has_type v (TScalar k) -> exists s, v = VArr (ascalar s) /\ skind s = k.
Proof.
  intros H. destruct H as [W T]. destruct v as [a|]; [|discriminate]. simpl in T.
  destruct a as [ka sh d]. simpl in T. destruct sh as [|n sh]; [|discriminate]. simpl in T. injection T as ->.
  destruct W as [L K]. simpl in L. destruct d as [|x [|y d]]; simpl in L; try lia. inversion K; subst.
  exists x. simpl in *. subst. auto.
Qed.

Lemma typed_int v : has_type v (TScalar KInt) -> exists z, v = VArr (ascalar (SI z)).
Proof. intros H. apply typed_scalar in H as (s & -> & K). destruct s; try discriminate. eauto. Qed.

(** subterms *)
Ltac sub_good H :=
  let t := fresh in destruct H as [[t HT] HSC HINT HEXT HFB HSAFE HDEN];
  cbn [typ] in HT; simpl in HSC, HINT, HEXT, HFB.

Lemma good_get t i : good (PGet t i) -> good t /\ good i /\ int_typed i /\ (exists el, typ t = Ok (TVec el)) /\
  forall s, wv N I s -> get_safe N (E s) t i.
Proof.
  intros H. sub_good H.
  apply bind_ok in HT as (tt & T1 & HT). apply bind_ok in HT as (ti & T2 & HT).
  destruct tt as [|el|]; try discriminate. destruct ti; try discriminate. injection HT as <-.
  destruct HSC, HINT as (? & ? & ?), HEXT, HFB.
  assert (SF : forall s, wv N I s -> forall f, safe f N (E s) t /\ safe f N (E s) i /\ get_safe N (E s) t i).
  { intros s Hs f. apply (HSAFE s Hs (S f)). }
  split; [|split; [|split; [|split]]]; auto.
  - constructor; eauto; [intros s Hs f; apply SF; auto|].
    intros s Hs. destruct (HDEN s Hs) as (v & D). cbn [den] in D. apply bind_ok in D as (u & D & _). eauto.
  - constructor; eauto; [intros s Hs f; apply SF; auto|].
    intros s Hs. destruct (HDEN s Hs) as (v & D). cbn [den] in D. inv_bind. eauto.
  - exists el. auto.
  - intros s Hs. apply (SF s Hs 0).
Qed.

Lemma good_bin o a b : good (PBin o a b) -> good a /\ good b.
Proof.
  intros H. sub_good H. inv_bind. destruct HSC, HINT, HEXT, HFB.
  assert (SF : forall s, wv N I s -> forall f, safe f N (E s) a /\ safe f N (E s) b).
  { intros s Hs f. apply (HSAFE s Hs (S f)). }
  split; (constructor; eauto; [intros s Hs f; apply SF; auto|]);
    intros s Hs; destruct (HDEN s Hs) as (v & D); cbn [den] in D; inv_bind; eauto.
Qed.

Lemma good_un o a : good (PUn o a) -> good a.
Proof.
  intros H. sub_good H. inv_bind.
  constructor; eauto; [intros s Hs f; apply (HSAFE s Hs (S f))|].
  intros s Hs; destruct (HDEN s Hs) as (v & D); cbn [den] in D; inv_bind; eauto.
Qed.

Lemma good_where c a b : good (PWhere c a b) -> good c /\ good a /\ good b.
Proof.
  intros H. sub_good H. inv_bind. destruct HSC as (? & ? & ?), HINT as (? & ? & ?), HEXT as (? & ? & ?), HFB as (? & ? & ?).
  assert (SF : forall s, wv N I s -> forall f, safe f N (E s) c /\ safe f N (E s) a /\ safe f N (E s) b).
  { intros s Hs f. apply (HSAFE s Hs (S f)). }
  split; [|split]; (constructor; eauto; [intros s Hs f; apply SF; auto|]);
    intros s Hs; destruct (HDEN s Hs) as (v & D); cbn [den] in D; inv_bind; eauto.
Qed.

Lemma good_concat a b : good (PConcat a b) -> good a /\ good b.
Proof.
  intros H. sub_good H. inv_bind. destruct HSC, HINT, HEXT, HFB.
  assert (SF : forall s, wv N I s -> forall f, safe f N (E s) a /\ safe f N (E s) b).
  { intros s Hs f. apply (HSAFE s Hs (S f)). }
  split; (constructor; eauto; [intros s Hs f; apply SF; auto|]);
    intros s Hs; destruct (HDEN s Hs) as (v & D); cbn [den] in D; inv_bind; eauto.
Qed.

Lemma good_cons a b : good (PCons a b) -> good a /\ good b.
Proof.
  intros H. sub_good H. inv_bind. destruct HSC, HINT, HEXT, HFB.
  assert (SF : forall s, wv N I s -> forall f, safe f N (E s) a /\ safe f N (E s) b).
  { intros s Hs f. apply (HSAFE s Hs (S f)). }
  split; (constructor; eauto; [intros s Hs f; apply SF; auto|]);
    intros s Hs; destruct (HDEN s Hs) as (v & D); cbn [den] in D; inv_bind; eauto.
Qed.

Lemma good_first t : good (PFirst t) -> good t.
Proof.
  intros H. sub_good H. inv_bind.
  constructor; eauto; [intros s Hs f; apply (HSAFE s Hs (S f))|].
  intros s Hs; destruct (HDEN s Hs) as (v & D); cbn [den] in D; inv_bind; eauto.
Qed.
Lemma good_second t : good (PSecond t) -> good t.
Proof.
  intros H. sub_good H. inv_bind.
  constructor; eauto; [intros s Hs f; apply (HSAFE s Hs (S f))|].
  intros s Hs; destruct (HDEN s Hs) as (v & D); cbn [den] in D; inv_bind; eauto.
Qed.
Lemma good_dimterm t ax : good (PDim t ax) -> good t.
Proof.
  intros H. sub_good H. inv_bind.
  constructor; eauto; [intros s Hs f; apply (HSAFE s Hs (S f))|].
  intros s Hs; destruct (HDEN s Hs) as (v & D); cbn [den] in D; inv_bind; eauto.
Qed.
Lemma good_assert t ops : good (PAssertEq t ops) -> good t.
Proof.
  intros H. sub_good H. inv_bind. destruct HSC, HINT, HEXT, HFB.
  constructor; eauto; [intros s Hs f; apply (HSAFE s Hs (S f))|].
  intros s Hs; destruct (HDEN s Hs) as (v & D); cbn [den] in D; inv_bind; eauto.
Qed.

Lemma good_vec_size i size body : good (PVec i size body) -> good size /\ int_typed size.
Proof.
  intros H. sub_good H. apply bind_ok in HT as (ts & T1 & HT). apply bind_ok in HT as (tb & T2 & HT).
  destruct ts as [k| |]; try discriminate. apply bind_ok in HT as (u & _ & HT). apply bind_ok in HT as (u' & K & HT).
  apply guard_ok in K. apply kind_eqb_eq in K. subst k.
  destruct HSC, HINT, HEXT, HFB as (? & ? & ?). split; [|exact T1].
  constructor; eauto; [intros s Hs f; apply (HSAFE s Hs (S f))|].
  intros s Hs; destruct (HDEN s Hs) as (v & D); cbn [den] in D. apply bind_ok in D as (vz & D & _). eauto.
Qed.

Lemma good_fold_parts c size acc init body : good (PFold c size acc init body) ->
  good size /\ int_typed size /\ good init /\ exists t, typ init = Ok t /\ typ body = Ok t /\ typ (PFold c size acc init body) = Ok t.
Proof.
  intros H. destruct H as [[t HT] HSC HINT HEXT HFB HSAFE HDEN]. pose proof HT as HT0. cbn [typ] in HT. simpl in HSC, HINT, HEXT, HFB.
  apply bind_ok in HT as (ts & T1 & HT). apply bind_ok in HT as (ti & T2 & HT).
  apply bind_ok in HT as (tb & T3 & HT).
  destruct ts as [k| |]; try discriminate. apply bind_ok in HT as (u & K & HT). apply bind_ok in HT as (u' & Q & HT).
  apply guard_ok in K. apply kind_eqb_eq in K. subst k. apply guard_ok in Q. apply ty_eqb_eq in Q. subst tb.
  injection HT as ->.
  destruct HSC as (? & ? & ?), HINT as (? & ? & ?), HEXT as (? & ? & ?), HFB as (? & ? & ? & ? & ? & ?).
  split; [|split; [exact T1|split]].
  - constructor; eauto; [intros s Hs f; apply (HSAFE s Hs (S f))|].
    intros s Hs; destruct (HDEN s Hs) as (v & D); cbn [den] in D. apply bind_ok in D as (vz & D & _). eauto.
  - constructor; eauto; [intros s Hs f; apply (HSAFE s Hs (S f))|].
    intros s Hs; destruct (HDEN s Hs) as (v & D); cbn [den] in D. inv_bind. eauto.
  - exists t. auto.
Qed.

Lemma good_let_parts x b body : good (PLet x b body) -> good b.
Proof.
  intros H. sub_good H. inv_bind. destruct HSC as (? & ?), HINT, HEXT, HFB as (? & ? & ?).
  constructor; eauto; [intros s Hs f; apply (HSAFE s Hs (S f))|].
  intros s Hs; destruct (HDEN s Hs) as (v & D); cbn [den] in D; inv_bind; eauto.
Qed.

Lemma good_ext_parts t f ops : good (PExt t f ops) -> Forall good ops.
Proof.
  intros H. sub_good H. apply bind_ok in HT as (ts & T1 & HT).
  rewrite all_and_Forall in HSC, HINT, HFB. destruct HEXT as (HEXT & _). rewrite all_and_Forall in HEXT.
  rewrite Forall_forall in *. intros o Ho. constructor; auto.
  - apply mapM_Forall2 in T1. apply In_nth with (d := o) in Ho as (j & Hj & <-).
    exists (nth j ts t). apply (Forall2_nth _ _ _ j o t T1 Hj).
  - intros s Hs g. pose proof (HSAFE s Hs (S g)) as Q. simpl in Q. rewrite Forall_forall in Q. auto.
  - intros s Hs. destruct (HDEN s Hs) as (v & D). cbn [den] in D. apply bind_ok in D as (vs & D & _).
    apply mapM_Forall2 in D. apply In_nth with (d := o) in Ho as (j & Hj & <-).
    exists (nth j vs v). apply (Forall2_nth _ _ _ j o v D Hj).
Qed.

(** derived terms *)
Lemma good_mk_bin o a b : good a -> good b -> int_typed a -> int_typed b ->
  match o with BAdd | BSub | BMin | BMax => True | _ => False end ->
  good (PBin o a b) /\ int_typed (PBin o a b).
Proof.
  intros Ha Hb Ta Tb Ho.
  assert (T : int_typed (PBin o a b)).
  { unfold int_typed in *. cbn [typ]. rewrite Ta, Tb. cbn [bind]. destruct o; try contradiction; reflexivity. }
  split; auto. destruct Ha as [HT HSC HINT HEXT HFB HSAFE HDEN] eqn:EA. destruct Hb as [HT' HSC' HINT' HEXT' HFB' HSAFE' HDEN'] eqn:EB.
  constructor; simpl; eauto.
  - intros s Hs [|f]; simpl; auto. split; [apply HSAFE|apply HSAFE']; auto.
  - intros s Hs. clear EA EB.
    assert (GA : good a) by (constructor; auto). assert (GB : good b) by (constructor; auto).
    destruct (typed_int _ (good_typed a _ s GA Ta Hs)) as (z1 & E1).
    destruct (typed_int _ (good_typed b _ s GB Tb Hs)) as (z2 & E2).
    rewrite (good_den a s GA Hs), (good_den b s GB Hs), E1, E2. cbn [bind].
    unfold lift2, val_scalar. cbn [as_arr bind]. rewrite !as_scalar_ascalar. cbn [bind].
    destruct o; try contradiction; cbn; eauto.
Qed.

Lemma good_mk_neg a : good a -> int_typed a -> good (PUn UNeg a) /\ int_typed (PUn UNeg a).
Proof.
  intros Ha Ta.
  assert (T : int_typed (PUn UNeg a)).
  { unfold int_typed in *. cbn [typ]. rewrite Ta. cbn [bind]. reflexivity. }
  split; auto. pose proof Ha as [HT HSC HINT HEXT HFB HSAFE HDEN].
  constructor; simpl; eauto.
  - intros s Hs [|f]; simpl; auto. apply HSAFE; auto.
  - intros s Hs. destruct (typed_int _ (good_typed a _ s Ha Ta Hs)) as (z1 & E1).
    rewrite (good_den a s Ha Hs), E1. cbn [bind].
    unfold lift1, val_scalar. cbn [as_arr bind]. rewrite !as_scalar_ascalar. cbn [bind]. cbn. eauto.
Qed.

Definition part_ok (o : option phi) : Prop := match o with Some e => good e /\ int_typed e | None => True end.
Definition clipped_ok (t : clipped) : Prop := let '(d, lo, hi) := t in part_ok d /\ part_ok lo /\ part_ok hi.

Lemma add_parts t b t' : clip_shift_add t b = Some t' -> (forall x, t = Some x -> clipped_ok x) -> good b -> int_typed b -> clipped_ok t'.
Proof.
  unfold clip_shift_add. intros H Ht Gb Tb. destruct (negb _); [discriminate|].
  destruct t as [[[d [|]] [|]]|]; try discriminate. injection H as <-.
  destruct (Ht _ eq_refl) as (Hd & _). simpl. split; auto. destruct d as [d|]; auto. destruct Hd. apply good_mk_bin; auto.
Qed.
Lemma min_parts t b t' : clip_shift_min t b = Some t' -> (forall x, t = Some x -> clipped_ok x) -> good b -> int_typed b -> clipped_ok t'.
Proof.
  unfold clip_shift_min. intros H Ht Gb Tb. destruct (negb _); [discriminate|].
  destruct t as [[[d lo] hi]|]; try discriminate. injection H as <-.
  destruct (Ht _ eq_refl) as (Hd & Hl & Hh). simpl. split; auto. split; auto. destruct hi as [hi|]; auto. destruct Hh. apply good_mk_bin; auto.
Qed.
Lemma max_parts t b t' : clip_shift_max t b = Some t' -> (forall x, t = Some x -> clipped_ok x) -> good b -> int_typed b -> clipped_ok t'.
Proof.
  unfold clip_shift_max. intros H Ht Gb Tb. destruct (negb _); [discriminate|].
  destruct t as [[[d lo] hi]|]; try discriminate. injection H as <-.
  destruct (Ht _ eq_refl) as (Hd & Hl & Hh). simpl. split; auto. split.
  - destruct lo as [lo|]; auto. destruct Hl. apply good_mk_bin; auto.
  - destruct hi as [hi|]; simpl; auto. destruct Hh. apply good_mk_bin; auto.
Qed.

Lemma int_bin_parts o a b : int_typed (PBin o a b) -> match o with BAdd | BSub | BMin | BMax => True | _ => False end ->
  int_typed a /\ int_typed b.
Proof.
  unfold int_typed. cbn [typ]. intros H Ho. apply bind_ok in H as (ta & T1 & H). apply bind_ok in H as (tb & T2 & H).
  apply resolve_bin_inv in H as (k1 & k2 & k' & -> & -> & K & Q). injection K as <-.
  destruct o, k1, k2; try contradiction; try discriminate; auto.
Qed.

Lemma match_parts sy e : forall t, match_clipped_shift e sy = Some t -> good e -> int_typed e -> clipped_ok t.
Proof.
  assert (NIL : forall t, Some (None, None, None) = Some t -> clipped_ok t).
  { intros t H. injection H as <-. simpl. auto. }
  induction e using phi_ind'; intros t' Hm Hg Ht; cbn [match_clipped_shift] in Hm;
    destruct (is_nil _) in Hm; try (apply NIL; exact Hm); try discriminate.
  - destruct (sym_eqb sy s); [|discriminate]. apply NIL; auto.
  - destruct (good_bin _ _ _ Hg) as [Ga Gb].
    destruct o; try discriminate; destruct (int_bin_parts _ _ _ Ht Logic.I) as [Ta Tb]; unfold first_opt in Hm.
    + destruct (clip_shift_add (match_clipped_shift e1 sy) e2) eqn:Q.
      * injection Hm as <-. eapply add_parts; eauto.
      * eapply add_parts; eauto.
    + destruct (good_mk_neg _ Gb Tb) as [Gn Tn].
      destruct (clip_shift_add (match_clipped_shift e1 sy) (PUn UNeg e2)) eqn:Q.
      * injection Hm as <-. eapply add_parts; eauto.
      * eapply add_parts; eauto. intros x Hx. unfold match_negated in Hx. destruct (is_nil _); [|discriminate]. apply NIL; auto.
    + destruct (clip_shift_min (match_clipped_shift e1 sy) e2) eqn:Q.
      * injection Hm as <-. eapply min_parts; eauto.
      * eapply min_parts; eauto.
    + destruct (clip_shift_max (match_clipped_shift e1 sy) e2) eqn:Q.
      * injection Hm as <-. eapply max_parts; eauto.
      * eapply max_parts; eauto.
Qed.

Lemma match_index_parts e i t : match_index_clipped_shift e = Some (i, t) -> good e -> int_typed e ->
  clipped_ok t /\ In i I /\ G (SX i) <> None.
Proof.
  unfold match_index_clipped_shift. intros H Hg Ht. destruct (the_index (free_indices e)) as [j|] eqn:Q; [|discriminate].
  destruct (match_clipped_shift e (SX j)) as [t'|] eqn:M; [|discriminate]. injection H as <- <-.
  split; [eapply match_parts; eauto|].
  apply the_index_In in Q. unfold free_indices in Q. apply filter_In in Q as [Q _].
  assert (K : G (SX j) <> None) by (eapply scoped_free; eauto; apply Hg).
  split; auto. apply (in_scope_x X). apply (c_dom _ _ _ _ _ _ _ _ C). auto.
Qed.

Lemma good_dim_of t : forall ax, good t ->
  (forall s, wv N I s -> exists d, vdim (dval (E s) t) ax = Ok d) ->
  good (dim_of t ax) /\ int_typed (dim_of t ax).
Proof.
  assert (DFL : forall t ax, good t -> (forall s, wv N I s -> exists d, vdim (dval (E s) t) ax = Ok d) ->
    good (PDim t ax) /\ int_typed (PDim t ax)).
  { intros t0 ax Hg Hd. pose proof Hg as [HT HSC HINT HEXT HFB HSAFE HDEN].
    assert (T : int_typed (PDim t0 ax)).
    { unfold int_typed. cbn [typ]. destruct HT as (tt & ->). reflexivity. }
    split; auto. constructor; simpl; eauto.
    - intros s Hs [|f]; simpl; auto. apply HSAFE; auto.
    - intros s Hs. rewrite (good_den _ _ Hg Hs). cbn [bind]. destruct (Hd s Hs) as (d & ->). cbn. eauto. }
  induction t using phi_ind'; intros axis Hg Hd; try (apply DFL; auto; fail).
  - cbn [dim_of]. destruct (good_get _ _ Hg) as (G1 & G2 & _). apply IHt1; auto.
    intros s Hs. destruct (Hd s Hs) as (d & D). exists d.
    pose proof (good_den _ _ Hg Hs) as Q. cbn [den] in Q. rewrite (good_den _ _ G1 Hs) in Q. cbn [bind] in Q. inv_bind.
    eapply vdim_vget; eauto.
  - cbn [dim_of]. destruct axis; [|apply DFL; auto]. apply good_vec_size in Hg. auto.
Qed.

End Good.
End Safe.
