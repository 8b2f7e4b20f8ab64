(** Accesses elided because of equal size classes are safe. *)
From Verif Require Import Base Scalar Tensor Types Sym Phi Den Term PhiTerm DenFree SpecPhi Lining LiningFacts TypesFacts Typing DenWf
  Equiv Naive Sizes ClipShift NdOps Yarr Axial AxialFacts AxialOps Codegen IndexOps YOps CodegenSafe SizeClasses Moments MomentFacts SizeSound.

Section SizeSafe.
Context {FO : FloatOps} {EX : Externs}.
Variable fl : flags.
Variable padk : kind -> bool.
Variable pade : bool.

(** The size classes of a program as used by the translation
    (array_indexing.py:86, phi_to_yarr.py:364). *)
Definition class_oracle (s : @uf key) : oracle :=
  mkOracle (fun i e => same s [KIdx i; KExpr e]) (fun a b => same s [KExpr a; KExpr b]) (fun _ => 0).

Variable orc : oracle.

(** [get_safe] without the condition on accesses compiled to the target itself. *)
Definition get_safe_but (N : nat -> nat) (E : env) (t i : phi) : Prop :=
  forall v n, den E t = Ok v -> vdim v 0 = Ok n ->
    match (if use_slice_pads fl then match_index_clipped_shift i else None) with
    | Some (index, (shift, low, high)) =>
        if smem (SX index) (free_indices t) then 1 <= n
        else if use_slice_elision fl && (is_none shift && is_none low && is_none high)
                && eq_index orc index (dim_of t 0)
        then True
        else 1 <= n /\ 1 <= N index /\
             (forall a, v = VArr a -> padk (akind a) = true /\
                (pade = true \/ ((forall j, 1 <= N j) /\ Forall (lt 0) (ashape a)))) /\
             (forall e z, low = Some e -> den_int E e z -> (0 <= z)%Z) /\
             (forall e z, high = Some e -> den_int E e z -> (0 <= z <= Z.of_nat n - 1)%Z)
    | None => 1 <= n
    end.

(** [safe] with [get_safe_but], for programs whose loops are compiled to loops.
    (The body of a reduction, which meets values in any order, is asked to be [safe].) *)
Fixpoint safe_but (f : nat) (N : nat -> nat) (E : env) (e : phi) {struct f} : Prop :=
  match f with
  | 0 => True
  | S f =>
      match e with
      | PConst _ | PStore _ _ => True
      | PLet x b body => safe_but f N E b /\ forall v, den E b = Ok v -> safe_but f N (upd E (SV x) v) body
      | PAssertEq t _ => safe_but f N E t
      | PDim t _ => safe_but f N E t
      | PGet t i => safe_but f N E t /\ safe_but f N E i /\ get_safe_but N E t i
      | PCons a b => safe_but f N E a /\ safe_but f N E b
      | PFirst t | PSecond t => safe_but f N E t
      | PVec i size body =>
          safe_but f N E size /\
          forall v z, den E size = Ok v -> val_int v = Ok z ->
            (0 <= z)%Z /\
            forall k, k < Nat.max 1 (Z.to_nat z) ->
              safe_but f (set_asg N i (Z.to_nat z)) (upd E (SX i) (vnat k)) body
      | PFold c size acc init body =>
          safe_but f N E size /\ safe_but f N E init /\
          (forall v z k w, den E size = Ok v -> val_int v = Ok z -> k < Z.to_nat z ->
            acc_val E c acc init body k = Ok w ->
            safe_but f N (fold_env E c acc k w) body)
      | PReduce init x y xy vecs =>
          safe_but f N E init /\ Forall (safe_but f N E) vecs /\ reduce_safe E init x y xy vecs /\
          forall a b t m, combined E init x y xy vecs a -> combined E init x y xy vecs b ->
            ~ In (SX t) (fsyms e ++ bsyms e) -> 1 <= m ->
            safe fl orc padk pade f (set_asg N t m) (red_env E x y a b) xy
      | PUn _ a => safe_but f N E a
      | PBin _ a b => safe_but f N E a /\ safe_but f N E b
      | PWhere c a b => safe_but f N E c /\ safe_but f N E a /\ safe_but f N E b
      | PConcat a b => safe_but f N E a /\ safe_but f N E b
      | PExt _ _ ops => Forall (safe_but f N E) ops
      end
  end.
Definition safe_but_all (N : nat -> nat) (E : env) (e : phi) : Prop := forall f, safe_but f N E e.

Hypothesis NRED : use_reductions fl = false.
Hypothesis NEIN : use_einsum fl = false.

(** Where an index is not at 0 nothing more is asked for. *)
Lemma safe_off_zero f : forall N E e j u, E (SX j) = Some u -> u <> vint 0 -> ~ In (SX j) (bsyms e) ->
  safe_but f N E e -> safe fl orc padk pade f N E e.
Proof.
  induction f as [|f IH]; intros N E e j u Hj Hu HB H; [exact I|].
  assert (IHc : forall N' E' c, In c (subterms e) -> E' (SX j) = Some u -> safe_but f N' E' c -> safe fl orc padk pade f N' E' c).
  { intros N' E' c Hc HE HS. apply (IH N' E' c j u); auto. intros K. apply HB. rewrite bsyms_list. apply in_or_app. right.
    apply in_flat_map. eauto. }
  destruct e; cbn [safe safe_but] in *; auto;
    repeat match goal with H : _ /\ _ |- _ => destruct H end;
    repeat match goal with |- _ /\ _ => split end;
    try (apply IHc; simpl; auto; fail); auto.
  - intros v Hv. apply IHc; simpl; auto. 
  - intros v n Hv Hn. specialize (H1 v n Hv Hn). destruct (if use_slice_pads fl then _ else _) as [[index [[shift low] high]]|]; auto.
    destruct (smem _ _); auto. destruct (_ && _ && _); auto. intros Z. exfalso. apply Hu. eapply Z; eauto.
  - intros v z Hv Hz. destruct (H0 v z Hv Hz) as [Z0 K]. split; auto. intros k Hk. apply IHc; simpl; auto.
    rewrite upd_neq; auto. intros Q. apply HB. rewrite Q. simpl. auto.
  - intros v z k w Hv Hz Hk HA. apply IHc; [simpl; auto| |eapply H1; eauto]. unfold fold_env. rewrite !upd_neq by congruence. auto.
  - congruence.
  - congruence.
  - rewrite Forall_forall in *. intros o Ho. apply IHc; auto. simpl. rewrite in_app_iff. auto.
  - rewrite Forall_forall in *. intros o Ho. apply IHc; simpl; auto.
Qed.

(** * The program *)
Variable p : phi.
Variable s : @uf key.
Hypothesis CLS : find_size_classes p = Ok s.
Hypothesis ORC : orc = class_oracle s.
Hypothesis HY : hyg p.
Hypothesis closed : forall i, ~ isfree (SX i) p.

(** [E] is what evaluation of [e] sees at the moment [M]. *)
Definition scope_sizes (N : nat -> nat) (M : env) (e : phi) : Prop :=
  forall i, isfree (SX i) e -> exists sz b z, sub_of (PVec i sz b) p /\ sub_of e b /\ kread (den M sz) = Some z /\ N i = Z.to_nat z.

Lemma match_index_free e i t : match_index_clipped_shift e = Some (i, t) -> isfree (SX i) e.
Proof.
  unfold match_index_clipped_shift. intros H. destruct (the_index (free_indices e)) as [j|] eqn:Q; [|discriminate].
  destruct (match_clipped_shift e (SX j)) as [t'|] eqn:M; [|discriminate]. injection H as <- <-.
  apply the_index_In in Q. apply filter_In in Q as [Q _]. eapply (tfree_isfree e). exact Q.
Qed.

Lemma elided N M E t i index : moment M p -> loops_run M p -> sub_of (PGet t i) p ->
  (forall r, isfree r (PGet t i) -> M r = E r) -> scope_sizes N M (PGet t i) ->
  match_index_clipped_shift i = Some (index, (None, None, None)) -> eq_index orc index (dim_of t 0) = true ->
  forall v n, den E t = Ok v -> vdim v 0 = Ok n -> N index = n.
Proof.
  intros HM HR Hs HE HN MI Q v n Hv Hn. rewrite ORC in Q. cbn [class_oracle eq_index] in Q.
  assert (ST : sub_of t p) by (eapply sub_of_trans; [|exact Hs]; apply (sub_step t t (PGet t i)); [simpl; auto|constructor]).
  assert (FI : isfree (SX index) (PGet t i)).
  { apply free_in_isfree. simpl. right. pose proof (match_index_free _ _ _ MI). apply free_in_isfree. auto. }
  destruct (HN index FI) as (sz & b & z & HV & HB & HZ & ->).
  assert (G : good p (dim_of t 0)).
  { destruct (dim_of_sub t 0) as (u & Hu & [->|[ax ->]]); [|apply good_dim]; apply good_sub; auto; eapply sub_of_trans; eauto. }
  pose proof (size_classes_sound p HY closed s (KIdx index) (KExpr (dim_of t 0)) CLS Q I G M HM HR) as K. cbn [kval] in K.
  rewrite (size_at_vec p index sz b HY HV), HZ in K.
  assert (DT : den M t = Ok v).
  { rewrite <- Hv. apply den_ext. intros r Hr. apply HE. apply free_in_isfree. simpl. left. apply free_in_isfree. auto. }
  destruct (dim_of_den t M 0 v n DT Hn) as (w & z' & D1 & D2 & D3). rewrite D1 in K. simpl in K. unfold vread in K. rewrite D2 in K.
  injection K as ->. auto.
Qed.

Lemma vnat_inj k : vnat k = vint 0 -> k = 0.
Proof. unfold vnat, vint, ascalar. intros H. injection H as H. lia. Qed.

Lemma safe_at f : forall N M E e, moment M p -> loops_run M p -> sub_of e p -> (forall r, isfree r e -> M r = E r) ->
  scope_sizes N M e -> safe_but f N E e -> safe fl orc padk pade f N E e.
Proof.
  induction f as [|f IH]; intros N M E e HM HR He HE HN H; [exact I|].
  assert (SUB : forall c, In c (subterms e) -> sub_of c p) by (intros c Hc; eapply sub_of_trans; [eapply sub_step; [exact Hc|constructor]|auto]).
  assert (SC : forall c b, In c (subterms e) -> sub_of e b -> sub_of c b)
    by (intros c b Hc Hb; eapply sub_of_trans; [eapply sub_step; [exact Hc|constructor]|auto]).
  (* operands outside of the scope of a binder *)
  assert (UP : forall c, In c (subterms e) -> (forall r, free_in r c -> free_in r e) -> safe_but f N E c -> safe fl orc padk pade f N E c).
  { intros c Hc HF HS. assert (HF' : forall r, isfree r c -> isfree r e).
    { intros r Hr. apply free_in_isfree. apply HF. apply free_in_isfree. auto. }
    apply (IH N M); auto. intros i Hi. destruct (HN i (HF' _ Hi)) as (sz & b & z & A1 & A2 & A3 & A4).
    exists sz, b, z. split; auto. }
  assert (HYe : hyg e) by (eapply hyg_sub; eauto).
  (* bodies *)
  assert (DOWN : forall M' E' c B, In c (subterms e) -> moment M' p -> loops_run M' p -> (forall r, ~ In r B -> M' r = M r) ->
      incl B (bsyms e) -> (forall r, isfree r c -> M' r = E' r) -> (forall i, ~ In (SX i) (captured e)) ->
      safe_but f N E' c -> safe fl orc padk pade f N E' c).
  { intros M' E' c B Hc HM' HR' HB IB HE' NC HS. apply (IH N M'); auto. intros i Hi.
    assert (Fi : isfree (SX i) e) by (destruct (isfree_child (SX i) e c Hc Hi) as [K|K]; auto; exfalso; apply (NC i); auto).
    destruct (HN i Fi) as (sz & b & z & A1 & A2 & A3 & A4). exists sz, b, z. split; auto. split; auto. split; auto.
    rewrite <- A3. f_equal. apply den_ext. intros r Hr. apply HB. intros K.
    pose proof (hyg_sub _ _ A1 HY) as HYv. apply (proj2 HYv r).
    - apply free_in_isfree. simpl. left. apply free_in_isfree. auto.
    - apply (bsyms_sub e); [|apply IB; auto]. apply (sub_step e b); [simpl; auto|exact A2]. }
  destruct e; cbn [safe safe_but] in *; auto;
    repeat match goal with H : _ /\ _ |- _ => destruct H end;
    repeat match goal with |- _ /\ _ => split end;
    try (apply UP; simpl; auto; fail); auto.
  - (* let *) intros v Hv. destruct (HM _ He) as [_ (v' & Hv' & Hx)].
    assert (v' = v).
    { rewrite (den_ext e1 M E) in Hv'; [congruence|]. intros r Hr. apply HE. apply free_in_isfree. simpl. left. apply free_in_isfree. auto. }
    subst v'. apply (DOWN M _ e2 []); simpl; auto.
    + intros r [].
    + intros r Hr. destruct (sym_eq_dec r (SV x)) as [->|NE]; [rewrite upd_eq; auto|]. rewrite upd_neq by auto. apply HE.
      apply free_in_isfree. apply free_in_isfree in Hr. simpl. auto.
    + intros i [K|[]]. discriminate.
  - (* access *) intros v n Hv Hn. specialize (H1 v n Hv Hn).
    destruct (if use_slice_pads fl then _ else _) as [[index [[shift low] high]]|] eqn:Q; auto.
    destruct (smem _ _); auto. destruct (_ && _ && _) eqn:EL; auto. intros _.
    apply andb_true_iff in EL as [EL EQ]. apply andb_true_iff in EL as [_ EL].
    apply andb_true_iff in EL as [EL E3]. apply andb_true_iff in EL as [E1 E2].
    destruct shift, low, high; try discriminate. destruct (use_slice_pads fl); [|discriminate].
    eapply elided; eauto.
  - (* comprehension *) intros v z Hv Hz. destruct (H0 v z Hv Hz) as [Z0 K]. split; auto. intros k Hk. specialize (K k Hk).
    assert (NB : ~ In (SX i) (bsyms e2)).
    { intros B. pose proof (proj1 HYe) as ND. simpl in ND. inversion ND as [|? ? N1 _]. apply N1. apply in_or_app. auto. }
    destruct (Nat.eq_dec k 0) as [->|NZ].
    + apply (IH _ M); auto; [apply SUB; simpl; auto| |].
      * intros r Hr. destruct (sym_eq_dec r (SX i)) as [->|NE].
        -- rewrite upd_eq. destruct (HM _ He) as [_ (Hi & _)]. exact Hi.
        -- rewrite upd_neq by auto. apply HE. apply free_in_isfree. apply free_in_isfree in Hr. simpl. auto.
      * intros j Hj. destruct (Nat.eq_dec j i) as [->|NE].
        -- exists e1, e2, z. split; auto. split; [constructor|]. split; [|apply set_asg_eq].
           rewrite (den_ext e1 M E), Hv; [simpl; unfold vread; rewrite Hz; auto|]. intros r Hr. apply HE.
           apply free_in_isfree. simpl. left. apply free_in_isfree. auto.
        -- assert (Fj : isfree (SX j) (PVec i e1 e2)).
           { apply free_in_isfree. apply free_in_isfree in Hj. simpl. right. split; auto. congruence. }
           destruct (HN j Fj) as (sz & b & z' & A1 & A2 & A3 & A4). exists sz, b, z'. split; auto. split; [apply SC; simpl; auto|].
           split; auto. rewrite set_asg_neq; auto.
    + apply (safe_off_zero f _ _ _ i (vnat k)); auto; [apply upd_eq|]. intros Q. apply NZ. apply vnat_inj. auto.
  - (* fold *) intros v z k w Hv Hz Hk HA.
    assert (FS : forall d, d = e1 \/ d = e2 -> forall r, isfree r d -> M r = E r).
    { intros d Hd r Hr. apply HE. apply free_in_isfree. apply free_in_isfree in Hr. simpl. destruct Hd; subst d; auto. }
    assert (AC : acc_val M c acc e2 e3 k = Ok w).
    { rewrite <- HA. apply acc_val_ext; [apply FS; auto|]. intros r Hr N1 N2. apply HE. apply free_in_isfree. apply free_in_isfree in Hr.
      simpl. auto. }
    assert (DS : den M e1 = Ok v) by (rewrite <- Hv; apply den_ext; apply FS; auto).
    destruct (fold_moments M p c e1 acc e2 e3 v z k w) as (M' & HM' & HR' & Q1 & Q2 & Q3); auto.
    apply (DOWN M' _ e3 (SV c :: SV acc :: bsyms e3)); auto.
    + simpl. auto.
    + intros r Hr. simpl in *. rewrite !in_app_iff. tauto.
    + intros r Hr. unfold fold_env. destruct (sym_eq_dec r (SV c)) as [->|N1]; [rewrite upd_eq; auto|]. rewrite upd_neq by auto.
      destruct (sym_eq_dec r (SV acc)) as [->|N2]; [rewrite upd_eq; auto|]. rewrite upd_neq by auto.
      assert (Fr : isfree r (PFold c e1 acc e2 e3)).
      { apply free_in_isfree. apply free_in_isfree in Hr. simpl. auto. }
      rewrite Q3; [apply HE; auto|]. intros K. apply (proj2 HYe r Fr). simpl in *. rewrite !in_app_iff. tauto.
    + intros i [K|[K|[]]]; discriminate.
    + eapply H1; eauto.
  - congruence.
  - congruence.
  - rewrite Forall_forall in *. intros o Ho. apply UP; simpl; rewrite ?in_app_iff; auto. intros r Hr. right. left. apply any_Exists. eauto.
  - rewrite Forall_forall in *. intros o Ho. apply UP; simpl; auto. intros r Hr. apply any_Exists. eauto.
Qed.

(** Safe up to elided accesses is safe. *)
Theorem classes_safe N E : defined E p -> loops_run E p -> safe_but_all N E p -> safe_all fl orc padk pade N E p.
Proof.
  intros D R H f. destruct (all_have_moments p E HY D R) as (M & HM & A).
  assert (EA : forall r, isfree r p -> M r = E r) by (intros r Hr; apply A; apply HY; auto).
  apply (safe_at f N M); auto.
  - apply (runs_agree E); auto. intros r Hr. symmetry. auto.
  - constructor.
  - intros i Hi. exfalso. eapply closed; eauto.
Qed.
End SizeSafe.
