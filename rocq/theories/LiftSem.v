(** What a lifted sum of products means (phi_to_yarr.py:445-506). *)
From Verif Require Import Base Scalar Tensor Types Sym Phi Den Term PhiTerm DenFree SpecPhi Lining LiningFacts TypesFacts Typing DenWf Naive
  Sizes ClipShift NdOps NdFacts Yarr YWf Axial AxialFacts AxialOps Codegen IndexOps YOps CodegenSafe CodegenGet CodegenCtx CodegenCases
  Subst CodegenSub CodegenAxes CodegenCorrect CodegenRed Lift SumFacts.
From Coq Require Import Ring Permutation.

Section LiftSem.
Context {FO : FloatOps} {EX : Externs}.

Lemma scoped_free_in (e : phi) : forall G s, scoped G e -> free_in s e -> G s <> None.
Proof.
  assert (UP : forall (G : tctx) s x t, s <> x -> upd G x t s <> None -> G s <> None).
  { intros G s x t H. rewrite upd_neq; auto. }
  induction e using phi_ind'; intros G q HS HF; simpl in HS, HF; rewrite ?all_and_Forall, ?any_Exists in *.
  - destruct HF.
  - subst. congruence.
  - destruct HS as (A & tb & _ & B). destruct HF as [HF|[NE HF]]; eauto.
  - destruct HS as [A B]. destruct HF as [HF|(o & Ho & HF)]; [eauto|]. rewrite Forall_forall in *. eauto.
  - eauto.
  - destruct HS, HF; eauto.
  - destruct HS, HF; eauto.
  - eauto.
  - eauto.
  - destruct HS as (A & B). destruct HF as [HF|[NE HF]]; eauto.
  - destruct HS as (A & B & ti & _ & D). destruct HF as [HF|[HF|(N1 & N2 & HF)]]; eauto.
  - destruct HS as (A & B & ti & _ & D). destruct HF as [HF|[(o & Ho & HF)|(N1 & N2 & HF)]]; eauto.
    rewrite Forall_forall in *. eauto.
  - eauto.
  - destruct HS, HF; eauto.
  - destruct HS as (?&?&?), HF as [?|[?|?]]; eauto.
  - destruct HS, HF; eauto.
  - destruct HF as (o & Ho & HF). rewrite Forall_forall in *. eauto.
Qed.

(** A term in scope looks at the symbols in scope only. *)
Lemma den_scoped G (e : phi) E E' : scoped G e -> (forall s, G s <> None -> E s = E' s) -> den E e = den E' e.
Proof. intros HS H. apply den_ext. intros s Hs. apply H. eapply scoped_free_in; eauto. apply free_in_isfree; auto. Qed.

(** The float a term denotes, the number a size denotes. *)
Definition fden (E : env) (a : phi) : F := fof (dval E a).
Definition natof (E : env) (s : phi) : nat := match val_int (dval E s) with Ok z => Z.to_nat z | _ => 0 end.

(** A product is summed over the counters it mentions. *)
Definition mentions (c : nat) (p : list phi) : bool := existsb (fun a => smem (SV c) (fsyms a)) p.
Definition own (E : env) (p : list phi) (ct : list (nat * phi)) : list (nat * nat) :=
  map (fun q => (fst q, natof E (snd q))) (filter (fun q => mentions (fst q) p) ct).
Definition pterm (ct : list (nat * phi)) (E : env) (p : list phi) : F :=
  csum (own E p ct) (fun E' => prodl (map (fden E') p)) E.
Definition dsum (E : env) (d : dot) : F := suml (map (pterm (contract d) E) (products d)).

Definition tfloat := TScalar KFloat.

(** The context with the counters. *)
Definition ctxd (G : tctx) (ct : list (nat * phi)) : tctx :=
  fun s => match s with SV c => if mem c (map fst ct) then Some (TScalar KInt) else G s | _ => G s end.

Record pre (G : tctx) (X : list sym) (e : phi) : Prop := {
  p_typ : typ e = Ok tfloat;
  p_sc : scoped G e;
  p_int : int_indices e;
  p_ext : exts_ok e;
  p_fb : fresh_binders X e
}.

Record sarg (G : tctx) (X : list sym) (e : phi) (ct : list (nat * phi)) (a : phi) : Prop := {
  a_typ : typ a = Ok tfloat;
  a_sc : scoped (ctxd G ct) a;
  a_int : int_indices a;
  a_ext : exts_ok a;
  a_fb : fresh_binders X a;
  a_fs : forall s, In s (fsyms a) -> In s (fsyms e) \/ exists c, In c (map fst ct) /\ s = SV c;
  a_bs : incl (bsyms a) (bsyms e)
}.
Record ssize (G : tctx) (X : list sym) (e : phi) (q : nat * phi) : Prop := {
  z_typ : typ (snd q) = Ok (TScalar KInt);
  z_sc : scoped G (snd q);
  z_int : int_indices (snd q);
  z_ext : exts_ok (snd q);
  z_fb : fresh_binders X (snd q);
  z_fs : incl (fsyms (snd q)) (fsyms e);
  z_bs : incl (bsyms (snd q)) (bsyms e);
  z_new : ~ In (SV (fst q)) X;
  z_bound : In (SV (fst q)) (bsyms e)
}.
Record lstat (G : tctx) (X : list sym) (e : phi) (d : dot) : Prop := {
  l_nd : NoDup (map fst (contract d));
  l_ne : forall p, In p (products d) -> p <> [];
  l_arg : forall p a, In p (products d) -> In a p -> sarg G X e (contract d) a;
  l_size : forall q, In q (contract d) -> ssize G X e q
}.

Definition dom_in (G : tctx) (X : list sym) : Prop := forall s, G s <> None -> In s X.

Lemma ctxd_incl G X ct ct' : dom_in G X ->
  incl (map fst ct) (map fst ct') -> (forall c, In c (map fst ct') -> ~ In (SV c) X) ->
  forall s t, ctxd G ct s = Some t -> ctxd G ct' s = Some t.
Proof.
  intros HD HI HN [c|i] t; simpl; auto. destruct (mem c (map fst ct)) eqn:Q.
  - apply mem_In in Q. rewrite (proj2 (mem_In _ _) (HI _ Q)). auto.
  - intros HG. destruct (mem c (map fst ct')) eqn:Q'; auto. apply mem_In in Q'. exfalso. apply (HN c Q'). apply HD. congruence.
Qed.

Lemma sarg_incl G X e ct ct' a : dom_in G X ->
  incl (map fst ct) (map fst ct') -> (forall c, In c (map fst ct') -> ~ In (SV c) X) ->
  sarg G X e ct a -> sarg G X e ct' a.
Proof.
  intros HD HI HN [A1 A2 A3 A4 A5 A6 A7]. constructor; auto.
  - eapply scoped_mono; [exact A2|]. intros s t _. apply (ctxd_incl G X); auto.
  - intros s Hs. destruct (A6 s Hs) as [|(c & Hc & ->)]; eauto.
Qed.
Lemma sarg_up G X e e' ct a : incl (fsyms e) (fsyms e') -> incl (bsyms e) (bsyms e') -> sarg G X e ct a -> sarg G X e' ct a.
Proof.
  intros HF HB [A1 A2 A3 A4 A5 A6 A7]. constructor; auto.
  - intros s Hs. destruct (A6 s Hs); eauto.
  - intros s Hs. auto.
Qed.
Lemma ssize_up G X e e' q : incl (fsyms e) (fsyms e') -> incl (bsyms e) (bsyms e') -> ssize G X e q -> ssize G X e' q.
Proof. intros HF HB [A1 A2 A3 A4 A5 A6 A7 A8 A9]. constructor; auto; intros s Hs; auto. Qed.
Lemma lstat_up G X e e' d : incl (fsyms e) (fsyms e') -> incl (bsyms e) (bsyms e') -> lstat G X e d -> lstat G X e' d.
Proof.
  intros HF HB [A1 A2 A3 A4]. constructor; auto.
  - intros p a Hp Ha. eapply sarg_up; eauto.
  - intros q Hq. eapply ssize_up; eauto.
Qed.

Lemma lstat_neg G X e d : lstat G X e d -> lstat G X e (dot_neg d).
Proof.
  intros [A1 A2 A3 A4]. constructor; cbn [dot_neg contract products]; auto.
  - intros p Hp. apply in_map_iff in Hp as ([|q p'] & <- & Hp); [apply A2 in Hp; auto|discriminate].
  - intros p a Hp Ha. apply in_map_iff in Hp as ([|q p'] & <- & Hp); [destruct Ha|].
    destruct Ha as [<-|Ha]; [|apply (A3 _ a Hp); right; auto].
    destruct (A3 _ q Hp (or_introl eq_refl)) as [B1 B2 B3 B4 B5 B6 B7]. constructor; auto.
    cbn [typ]. rewrite B1. reflexivity.
Qed.

Lemma union_fst cx cy c : In c (map fst (union_contract cx cy)) <-> In c (map fst cx) \/ In c (map fst cy).
Proof.
  unfold union_contract. rewrite map_app, in_app_iff. split.
  - intros [H|H]; auto. apply in_map_iff in H as (q & <- & H). apply filter_In in H as [H _]. right. apply in_map. auto.
  - intros [H|H]; auto. destruct (mem c (map fst cx)) eqn:Q; [left; apply mem_In; auto|]. right.
    apply in_map_iff in H as (q & <- & H). apply in_map. apply filter_In. rewrite Q. auto.
Qed.
Lemma NoDup_map_filter {A B} (f : A -> B) g l : NoDup (map f l) -> NoDup (map f (filter g l)).
Proof.
  induction l as [|x l IH]; simpl; auto. intros H. inversion H; subst. destruct (g x); auto. simpl. constructor; auto.
  intros K. apply in_map_iff in K as (y & Q & K). apply filter_In in K as [K _]. apply H2. rewrite <- Q. apply in_map. auto.
Qed.
Lemma union_nodup cx cy : NoDup (map fst cx) -> NoDup (map fst cy) -> NoDup (map fst (union_contract cx cy)).
Proof.
  intros HX HY. unfold union_contract. rewrite map_app. apply NoDup_app_disj; auto; [apply NoDup_map_filter; auto|].
  intros c Hc K. apply in_map_iff in K as (q & <- & K). apply filter_In in K as [_ K]. apply mem_In in Hc. rewrite Hc in K. discriminate.
Qed.

Lemma lstat_union G X e dx dy ps : dom_in G X -> lstat G X e dx -> lstat G X e dy ->
  (forall p, In p ps -> p <> [] /\ forall a, In a p -> exists q, (In q (products dx) \/ In q (products dy)) /\ In a q) ->
  lstat G X e (mkDot (union_contract (contract dx) (contract dy)) ps).
Proof.
  intros HD HX HY HP.
  assert (HN : forall c, In c (map fst (union_contract (contract dx) (contract dy))) -> ~ In (SV c) X).
  { intros c Hc. apply union_fst in Hc as [Hc|Hc]; apply in_map_iff in Hc as (q & <- & Hq);
      [apply (z_new _ _ _ _ (l_size _ _ _ _ HX q Hq))|apply (z_new _ _ _ _ (l_size _ _ _ _ HY q Hq))]. }
  constructor; cbn [contract products].
  - apply union_nodup; [apply (l_nd _ _ _ _ HX)|apply (l_nd _ _ _ _ HY)].
  - intros p Hp. apply HP. auto.
  - intros p a Hp Ha. destruct (HP p Hp) as [_ Q]. destruct (Q a Ha) as (q & [Hq|Hq] & Haq).
    + eapply sarg_incl; [exact HD| |exact HN|exact (l_arg _ _ _ _ HX q a Hq Haq)]. intros c Hc. apply union_fst. auto.
    + eapply sarg_incl; [exact HD| |exact HN|exact (l_arg _ _ _ _ HY q a Hq Haq)]. intros c Hc. apply union_fst. auto.
  - intros q Hq. apply union_contract_In in Hq as [Hq|Hq]; [apply (l_size _ _ _ _ HX q Hq)|apply (l_size _ _ _ _ HY q Hq)].
Qed.

Lemma pre_bin G X o x y : (o = BAdd \/ o = BSub \/ o = BMul) -> pre G X (PBin o x y) -> pre G X x /\ pre G X y.
Proof.
  intros HO [A1 A2 A3 A4 A5]. cbn [typ] in A1. apply bind_ok in A1 as (ta & Ta & A1). apply bind_ok in A1 as (tb & Tb & A1).
  apply resolve_bin_inv in A1 as (k1 & k2 & k' & -> & -> & Q & K). injection Q as <-.
  assert (k1 = KFloat /\ k2 = KFloat) as [-> ->] by (destruct HO as [->|[->| ->]]; destruct k1, k2; try discriminate K; auto).
  simpl in A2, A3, A4, A5. destruct A2, A3, A4, A5. split; constructor; auto.
Qed.
Lemma pre_neg G X x : pre G X (PUn UNeg x) -> pre G X x.
Proof.
  intros [A1 A2 A3 A4 A5]. cbn [typ] in A1. apply bind_ok in A1 as (ta & Ta & A1).
  apply resolve_un_inv in A1 as (k1 & k' & -> & Q & K). injection Q as <-.
  assert (k1 = KFloat) as -> by (destruct k1; try discriminate K; auto). constructor; auto.
Qed.

Definition sum_ctx (G : tctx) (c acc : nat) : tctx := upd (upd G (SV acc) tfloat) (SV c) (TScalar KInt).
Lemma pre_sum G X c size acc init body elem : sum_body acc init body elem -> pre G X (PFold c size acc init body) ->
  pre (sum_ctx G c acc) (SV c :: SV acc :: X) elem /\
  typ size = Ok (TScalar KInt) /\ scoped G size /\ int_indices size /\ exts_ok size /\ fresh_binders X size /\
  ~ In (SV c) X /\ ~ In (SV acc) X /\ c <> acc.
Proof.
  intros (-> & a & b & -> & K) [A1 A2 A3 A4 A5]. cbn [typ] in A1.
  apply bind_ok in A1 as (ts & T1 & A1). apply bind_ok in A1 as (ti & T2 & A1).
  apply bind_ok in A1 as (tb & T3 & A1). cbn [typ] in T2. injection T2 as <-.
  destruct ts as [k| |]; try discriminate. apply bind_ok in A1 as (u & Q1 & A1). apply bind_ok in A1 as (u' & Q & A1).
  apply guard_ok in Q1. apply kind_eqb_eq in Q1. subst k. apply guard_ok in Q. apply ty_eqb_eq in Q. subst tb. clear A1.
  change (ndarray_type _ _) with tfloat in T3.
  simpl in A2, A3, A4, A5. destruct A2 as (S1 & _ & ti & Ti & S2). injection Ti as <-.
  change (TScalar KFloat) with tfloat in S2.
  destruct A3 as (I1 & _ & I2), A4 as (X1 & _ & X2), A5 as (NC & NAC & CA & F1 & _ & F2).
  apply bind_ok in T3 as (ta & Ta & T3). apply bind_ok in T3 as (tb & Tb & T3).
  apply resolve_bin_inv in T3 as (k1 & k2 & k' & -> & -> & Q & Kk). injection Q as <-.
  assert (k1 = KFloat /\ k2 = KFloat) as [-> ->] by (destruct k1, k2; try discriminate Kk; auto).
  destruct S2 as [Sa Sb], I2 as [Ia Ib], X2 as [Xa Xb], F2 as [Fa Fb].
  split; [|repeat split; auto; congruence]. destruct K as [(_ & ->)|(_ & _ & ->)]; constructor; auto.
Qed.

Lemma lifts_static e d : lifts true e d -> forall G X, dom_in G X -> pre G X e -> lstat G X e d.
Proof.
  induction 1 as [e|c size acc init body elem d d' SB HL IH DS HC|x y dx dy d HX IHX HY IHY DA|x y dx dy d HX IHX HY IHY DA|x dx HX IHX|x y dx dy HX IHX HY IHY HDJ];
    intros G X HD HP.
  - constructor; cbn [dot_pure contract products].
    + constructor.
    + intros p [<-|[]]. discriminate.
    + intros p a [<-|[]] [<-|[]]. destruct HP as [A1 A2 A3 A4 A5]. constructor; auto; [|intros s Hs; auto].
      eapply scoped_mono; [exact A2|]. intros [|] t _ Q; auto.
    + intros q [].
  - destruct (pre_sum G X c size acc init body elem SB HP) as (PE & TS & SS & IS & XS & FS & NC & NAC & CA).
    assert (HD' : dom_in (sum_ctx G c acc) (SV c :: SV acc :: X)).
    { intros s Hs. unfold sum_ctx in Hs. destruct (sym_eq_dec s (SV c)) as [->|N1]; [left; auto|].
      rewrite upd_neq in Hs by auto. destruct (sym_eq_dec s (SV acc)) as [->|N2]; [right; left; auto|].
      rewrite upd_neq in Hs by auto. right; right; auto. }
    destruct (IH _ _ HD' PE) as [L1 L2 L3 L4]. destruct (HC eq_refl) as (C1 & C2 & C3). rewrite Forall_forall in C3.
    unfold dot_sum in DS. apply bind_ok in DS as (u & Q & DS). injection DS as <-. apply guard_ok in Q.
    assert (NCC : ~ In c (map fst (contract d))).
    { intros K. apply mem_In in K. rewrite K in Q. discriminate. }
    assert (BE : forall s, In s (bsyms elem) -> s <> SV c /\ s <> SV acc).
    { intros s Hs. split; intros ->; revert Hs; (eapply fresh_not_bound; [exact (p_fb _ _ _ PE)|]); simpl; auto. }
    assert (FE : forall s, In s (fsyms elem) -> s <> SV c -> In s (fsyms (PFold c size acc init body))).
    { intros s Hs N1. destruct SB as (-> & a & b & -> & K). simpl. apply sremove_In. split.
      - rewrite !in_app_iff. destruct K as [(_ & ->)|(_ & _ & ->)]; auto.
      - intros [<-|[<-|[]]]; auto. }
    assert (BE' : incl (bsyms elem) (bsyms (PFold c size acc init body))).
    { intros s Hs. destruct SB as (-> & a & b & -> & K). simpl. rewrite !in_app_iff. destruct K as [(_ & ->)|(_ & _ & ->)]; auto. }
    constructor; cbn [contract products].
    + rewrite map_app. apply NoDup_app_disj; auto; [constructor; [intros []|constructor]|]. intros z Hz [<-|[]]. auto.
    + auto.
    + intros p a Hp Ha. destruct (L3 p a Hp Ha) as [B1 B2 B3 B4 B5 B6 B7]. constructor; auto.
      * eapply scoped_mono; [exact B2|]. intros s t Hs Qs.
        assert (NA : s <> SV acc).
        { intros ->. destruct Hs as [Hs|Hs].
          - destruct (B6 _ Hs) as [K|(c' & Hc' & K)]; [auto|]. injection K as <-. apply in_map_iff in Hc' as (q & <- & Hq).
            apply (z_new _ _ _ _ (L4 q Hq)). simpl; auto.
          - apply B7 in Hs. apply BE in Hs. tauto. }
        destruct s as [x|i].
        { simpl in Qs |- *. rewrite map_app. destruct (mem x (map fst (contract d))) eqn:M.
          - apply mem_In in M. rewrite (proj2 (mem_In _ _)); auto. apply in_or_app; auto.
          - unfold sum_ctx in Qs. destruct (Nat.eq_dec x c) as [->|NE].
            + rewrite upd_eq in Qs. rewrite (proj2 (mem_In _ _)); auto. apply in_or_app. right. left. auto.
            + rewrite !upd_neq in Qs by congruence. destruct (mem x (map fst (contract d) ++ map fst [(c, size)])) eqn:M'; auto.
              apply mem_In, in_app_or in M' as [M'|[M'|[]]]; [apply mem_In in M'; congruence|simpl in M'; congruence]. }
        { simpl in Qs |- *. unfold sum_ctx in Qs. rewrite !upd_neq in Qs by congruence. auto. }
      * eapply fresh_binders_add; [exact B5|]. intros s Hs. simpl; auto.
      * intros s Hs. rewrite map_app. destruct (B6 s Hs) as [K|(c' & Hc' & ->)].
        -- destruct (sym_eq_dec s (SV c)) as [->|NE]; [right; exists c; split; auto; apply in_or_app; right; left; auto|left; auto].
        -- right. exists c'. split; auto. apply in_or_app; auto.
      * intros s Hs. auto.
    + intros q Hq. apply in_app_or in Hq as [Hq|[<-|[]]].
      * destruct (L4 q Hq) as [B1 B2 B3 B4 B5 B6 B7 B8 B9]. specialize (C3 q Hq). constructor; auto.
        -- eapply scoped_mono; [exact B2|]. intros s t Hs Qs. unfold sum_ctx in Qs.
           assert (s <> SV c /\ s <> SV acc) as [N1 N2].
           { destruct Hs as [Hs|Hs]; [|apply BE; auto]. split; intros ->; auto. }
           rewrite !upd_neq in Qs by auto. auto.
        -- eapply fresh_binders_add; [exact B5|]. intros s Hs. simpl; auto.
        -- intros s Hs. apply FE; auto. intros ->. auto.
        -- intros s Hs. auto.
        -- intros K. apply B8. simpl; auto.
      * constructor; cbn [fst snd]; auto.
        -- intros s Hs. simpl. apply sremove_In. split; [apply in_or_app; auto|]. intros [<-|[<-|[]]].
           ++ apply (NC), HD. eapply scoped_free; eauto.
           ++ apply (NAC), HD. eapply scoped_free; eauto.
        -- intros s Hs. simpl. rewrite !in_app_iff. auto.
        -- simpl. auto.
  - unfold dot_add in DA. apply bind_ok in DA as (u & _ & DA). injection DA as <-.
    destruct (pre_bin _ _ _ _ _ (or_introl eq_refl) HP) as [PX PY]. apply lstat_union; auto.
    + eapply lstat_up; [| |apply IHX; eauto]; intros s Hs; simpl; apply in_or_app; auto.
    + eapply lstat_up; [| |apply IHY; eauto]; intros s Hs; simpl; apply in_or_app; auto.
    + intros p Hp. split.
      * apply in_app_or in Hp as [Hp|Hp]; [apply (l_ne _ _ _ _ (IHX _ _ HD PX)); auto|apply (l_ne _ _ _ _ (IHY _ _ HD PY)); auto].
      * intros a Ha. exists p. apply in_app_or in Hp. auto.
  - unfold dot_add in DA. apply bind_ok in DA as (u & _ & DA). injection DA as <-.
    destruct (pre_bin _ _ _ _ _ (or_intror (or_introl eq_refl)) HP) as [PX PY]. apply (lstat_union G X _ dx (dot_neg dy)); auto.
    + eapply lstat_up; [| |apply IHX; eauto]; intros s Hs; simpl; apply in_or_app; auto.
    + apply lstat_neg. eapply lstat_up; [| |apply IHY; eauto]; intros s Hs; simpl; apply in_or_app; auto.
    + intros p Hp. split.
      * apply in_app_or in Hp as [Hp|Hp]; [apply (l_ne _ _ _ _ (IHX _ _ HD PX)); auto|apply (l_ne _ _ _ _ (lstat_neg _ _ _ _ (IHY _ _ HD PY))); auto].
      * intros a Ha. exists p. apply in_app_or in Hp. auto.
  - apply lstat_neg. eapply lstat_up; [| |apply IHX; [exact HD|apply pre_neg; exact HP]]; intros s Hs; simpl; auto.
  - destruct (pre_bin _ _ _ _ _ (or_intror (or_intror eq_refl)) HP) as [PX PY]. apply lstat_union; auto.
    + eapply lstat_up; [| |apply IHX; eauto]; intros s Hs; simpl; apply in_or_app; auto.
    + eapply lstat_up; [| |apply IHY; eauto]; intros s Hs; simpl; apply in_or_app; auto.
    + intros p Hp. apply in_flat_map in Hp as (q & Hq & Hp). apply in_map_iff in Hp as (q' & <- & Hq'). split.
      * pose proof (l_ne _ _ _ _ (IHX _ _ HD PX) q Hq) as K. destruct q; [congruence|discriminate].
      * intros a Ha. apply in_app_or in Ha as [Ha|Ha]; [exists q|exists q']; auto.
Qed.

(** *** Meaning *)
Lemma fden_depends G a : scoped G a -> depends (fun s => G s <> None) (fun E => fden E a).
Proof. intros H E E' HE. unfold fden, dval. rewrite (den_scoped G a E E'); auto. Qed.
Lemma prod_depends G p : (forall a, In a p -> scoped G a) -> depends (fun s => G s <> None) (fun E => prodl (map (fden E) p)).
Proof.
  intros H E E' HE. f_equal. apply map_ext_in. intros a Ha. apply (fden_depends G); auto.
Qed.
Lemma own_agree G E E' p ct : (forall q, In q ct -> scoped G (snd q)) -> (forall s, G s <> None -> E s = E' s) ->
  own E p ct = own E' p ct.
Proof.
  intros H HE. unfold own. apply map_ext_in. intros q Hq. apply filter_In in Hq as [Hq _]. f_equal.
  unfold natof, dval. rewrite (den_scoped G (snd q) E E'); auto.
Qed.
Lemma own_fst E p ct c : In c (map fst (own E p ct)) -> In c (map fst ct) /\ mentions c p = true.
Proof.
  unfold own. rewrite map_map. cbn [fst]. intros H. apply in_map_iff in H as (q & <- & Hq). apply filter_In in Hq as [Hq M].
  split; auto. apply in_map. auto.
Qed.
Lemma own_nodup E p ct : NoDup (map fst ct) -> NoDup (map fst (own E p ct)).
Proof. intros H. unfold own. rewrite map_map. cbn [fst]. apply NoDup_map_filter. auto. Qed.
Lemma own_perm E p ct ct' : NoDup (map fst ct) -> NoDup (map fst ct') ->
  (forall q, mentions (fst q) p = true -> In q ct <-> In q ct') -> Permutation (own E p ct) (own E p ct').
Proof.
  intros H H' HQ. apply NoDup_Permutation.
  - apply NoDup_map_inv with (f := fst). apply own_nodup; auto.
  - apply NoDup_map_inv with (f := fst). apply own_nodup; auto.
  - intros x. unfold own. rewrite !in_map_iff. split; intros (q & <- & K); exists q; (split; [auto|]);
      apply filter_In in K as [K M]; apply filter_In; split; auto; apply (HQ q M); auto.
Qed.
Lemma mentions_app c p q : mentions c (p ++ q) = mentions c p || mentions c q.
Proof. apply existsb_app. Qed.

Variable LAWS : float_laws.
Add Ring fring : (f_ring LAWS).

Lemma fden_neg E a : fden E (PUn UNeg a) = fneg (fden E a).
Proof.
  assert (Z : fneg (f_of_Z 0) = f_of_Z 0) by ring.
  unfold fden, dval. cbn [den]. destruct (den E a) as [v|]; [|cbn [bind]; symmetry; exact Z]. cbn [bind]. unfold lift1, fof at 2.
  destruct (val_scalar v) as [s|]; [|symmetry; exact Z]. cbn [bind]. destruct s; cbn [sem_un of_opt bind]; try (symmetry; exact Z).
  apply fof_scalar.
Qed.

Lemma pterm_neg ct E p : p <> [] ->
  pterm ct E (match p with e :: p => PUn UNeg e :: p | [] => [] end) = fneg (pterm ct E p).
Proof.
  destruct p as [|a p]; [congruence|]. intros _. unfold pterm. rewrite <- (csum_neg LAWS).
  change (own E (PUn UNeg a :: p) ct) with (own E (a :: p) ct).
  apply (csum_ext _ _ _ (fun _ => True)); auto. intros E' _. cbn [map prodl fold_right]. rewrite fden_neg. ring.
Qed.
Lemma dsum_neg G X e d E : lstat G X e d -> dsum E (dot_neg d) = fneg (dsum E d).
Proof.
  intros H. unfold dsum. cbn [dot_neg contract products]. rewrite map_map, <- (suml_neg LAWS). f_equal. apply map_ext_in.
  intros p Hp. apply pterm_neg. apply (l_ne _ _ _ _ H). auto.
Qed.

Lemma mentions_in G X e d p c : dom_in G X -> lstat G X e d -> In p (products d) -> mentions c p = true ->
  ~ In (SV c) X -> In c (map fst (contract d)).
Proof.
  intros HD H Hp M N. apply existsb_exists in M as (a & Ha & M). apply smem_In in M.
  pose proof (scoped_free _ _ _ (a_sc _ _ _ _ _ (l_arg _ _ _ _ H p a Hp Ha)) M) as K. simpl in K.
  destruct (mem c (map fst (contract d))) eqn:Q; [apply mem_In; auto|]. exfalso. auto.
Qed.
Lemma new_counter G X e d c : lstat G X e d -> In c (map fst (contract d)) -> ~ In (SV c) X.
Proof. intros H Hc. apply in_map_iff in Hc as (q & <- & Hq). apply (z_new _ _ _ _ (l_size _ _ _ _ H q Hq)). Qed.

Lemma pterm_perm ct ct' G E p : Permutation (own E p ct) (own E p ct') -> NoDup (map fst ct) ->
  (forall a, In a p -> scoped G a) -> pterm ct E p = pterm ct' E p.
Proof.
  intros P ND HS. unfold pterm. apply (csum_perm LAWS); auto; [|apply own_nodup; auto].
  intros E1 E2 HE. apply (prod_depends G); auto.
Qed.

Lemma assoc_In {A} c (z : A) l : In (c, z) l -> NoDup (map fst l) -> assoc c l = Some z.
Proof.
  induction l as [|[c' z'] l IH]; intros H ND; [destruct H|]. simpl in *. inversion ND; subst. destruct H as [H|H].
  - injection H as -> ->. rewrite Nat.eqb_refl. auto.
  - destruct (Nat.eqb_spec c c') as [->|]; auto. exfalso. apply H2. apply in_map_iff. exists (c', z). auto.
Qed.
Lemma dsum_union G X e dx dy E : dom_in G X -> lstat G X e dx -> lstat G X e dy ->
  values_agree (contract dx) (contract dy) = true ->
  dsum E (mkDot (union_contract (contract dx) (contract dy)) (products dx ++ products dy)) = fadd (dsum E dx) (dsum E dy).
Proof.
  intros HD HX HY VA. unfold dsum. cbn [contract products]. rewrite map_app, (suml_app LAWS).
  pose proof (l_nd _ _ _ _ HX) as NX. pose proof (l_nd _ _ _ _ HY) as NY. pose proof (union_nodup _ _ NX NY) as NU.
  assert (AG : forall c s s', In (c, s) (contract dx) -> In (c, s') (contract dy) -> s = s').
  { intros c s s' H H'. unfold values_agree in VA. rewrite forallb_forall in VA. specialize (VA _ H). cbn [fst snd] in VA.
    rewrite (assoc_In c s' (contract dy)) in VA; auto. apply phi_eqb_eq. auto. }
  f_equal; f_equal; apply map_ext_in; intros p Hp.
  - apply pterm_perm with (G := ctxd G (contract dx)); auto.
    + apply own_perm; auto. intros [c z] M. cbn [fst] in M. unfold union_contract. rewrite in_app_iff, filter_In. cbn [fst].
      split; [|auto]. intros [K|[K K']]; auto. exfalso.
      assert (Q : In c (map fst (contract dx))).
      { eapply mentions_in; eauto. eapply new_counter; [exact HY|]. apply in_map_iff. exists (c, z). auto. }
      apply mem_In in Q. rewrite Q in K'. discriminate.
    + intros a Ha. apply (l_arg _ _ _ _ HX p a Hp Ha).
  - apply pterm_perm with (G := ctxd G (contract dy)); auto.
    + apply own_perm; auto. intros [c z] M. cbn [fst] in M. unfold union_contract. rewrite in_app_iff, filter_In. cbn [fst].
      split.
      * intros [K|[K _]]; auto.
        assert (Q : In c (map fst (contract dy))).
        { eapply mentions_in; eauto. eapply new_counter; [exact HX|]. apply in_map_iff. exists (c, z). auto. }
        apply in_map_iff in Q as ([c' z'] & Q & K'). simpl in Q. subst c'. rewrite (AG c z z' K K'). auto.
      * intros K. destruct (mem c (map fst (contract dx))) eqn:Q; [left|right; auto]. apply mem_In in Q.
        apply in_map_iff in Q as ([c' z'] & Q & K'). simpl in Q. subst c'. rewrite <- (AG c z' z K' K). auto.
    + intros a Ha. apply (l_arg _ _ _ _ HY p a Hp Ha).
Qed.

Lemma suml_prod {A B C} (f : A -> B -> C) (g : A -> F) (h : B -> F) (k : C -> F) l m :
  (forall x y, In x l -> In y m -> k (f x y) = fmul (g x) (h y)) ->
  suml (map k (flat_map (fun x => map (f x) m) l)) = fmul (suml (map g l)) (suml (map h m)).
Proof.
  intros H. induction l as [|x l IH]; simpl; [ring|]. rewrite map_app, (suml_app LAWS), IH by (intros; apply H; auto; right; auto).
  rewrite map_map, (map_ext_in _ (fun y => fmul (g x) (h y))) by (intros; apply H; auto; left; auto).
  rewrite <- (map_map h (fmul (g x))), (suml_mul_l LAWS). fold (suml (map g l)). ring.
Qed.

Lemma dsum_mul G X e dx dy E : dom_in G X -> lstat G X e dx -> lstat G X e dy ->
  (forall c, In c (map fst (contract dx)) -> ~ In c (map fst (contract dy))) ->
  dsum E (dot_mul dx dy) = fmul (dsum E dx) (dsum E dy).
Proof.
  intros HD HX HY HDJ. unfold dsum. cbn [dot_mul contract products].
  assert (U : union_contract (contract dx) (contract dy) = contract dx ++ contract dy).
  { unfold union_contract. f_equal. clear HX HY. assert (K : forall q, In q (contract dy) -> mem (fst q) (map fst (contract dx)) = false).
    { intros q Hq. apply not_true_iff_false. intros K. apply mem_In in K. apply (HDJ _ K). apply in_map. auto. }
    induction (contract dy) as [|q l IH]; simpl; auto. rewrite (K q) by (left; auto). simpl. f_equal. apply IH; [|intros; apply K; right; auto].
    intros c Hc Hl. apply (HDJ c Hc). right. auto. }
  rewrite U. apply suml_prod. intros p q Hp Hq. unfold pterm.
  assert (O : own E (p ++ q) (contract dx ++ contract dy) = own E p (contract dx) ++ own E q (contract dy)).
  { unfold own. rewrite filter_app, map_app. f_equal; f_equal; apply filter_ext_in; intros [c z] Hc; cbn [fst]; rewrite mentions_app.
    - assert (Hc' : In c (map fst (contract dx))) by (apply in_map_iff; exists (c, z); auto).
      destruct (mentions c q) eqn:M; [|apply orb_false_r]. exfalso. apply (HDJ c Hc').
      eapply mentions_in; eauto. eapply new_counter; [exact HX|auto].
    - assert (Hc' : In c (map fst (contract dy))) by (apply in_map_iff; exists (c, z); auto).
      destruct (mentions c p) eqn:M; auto. exfalso. apply (HDJ c); auto.
      eapply mentions_in; eauto. eapply new_counter; [exact HY|auto]. }
  rewrite O.
  rewrite (csum_ext _ _ (fun E' => fmul (prodl (map (fden E') p)) (prodl (map (fden E') q))) (fun _ => True)); auto.
  2:{ intros E' _. rewrite map_app, (prodl_app LAWS). auto. }
  apply (csum_prod LAWS (fun s => ctxd G (contract dx) s <> None) (fun s => ctxd G (contract dy) s <> None)).
  - apply prod_depends. intros a Ha. apply (l_arg _ _ _ _ HX p a Hp Ha).
  - apply prod_depends. intros a Ha. apply (l_arg _ _ _ _ HY q a Hq Ha).
  - intros c Hc K. apply own_fst in Hc as [Hc _]. simpl in K. destruct (mem c (map fst (contract dx))) eqn:Q.
    + apply mem_In in Q. apply (HDJ c); auto.
    + apply HD in K. eapply (new_counter _ _ _ _ _ HY); eauto.
  - intros c Hc K. apply own_fst in Hc as [Hc _]. simpl in K. destruct (mem c (map fst (contract dy))) eqn:Q.
    + apply mem_In in Q. apply (HDJ c); auto.
    + apply HD in K. eapply (new_counter _ _ _ _ _ HX); eauto.
Qed.

Definition vfloat (f : F) : val := VArr (ascalar (SF f)).

Lemma bin_floats E o x y a b v : den E x = Ok (vfloat a) -> den E y = Ok (vfloat b) -> den E (PBin o x y) = Ok v ->
  (o = BAdd -> v = vfloat (fadd a b)) /\ (o = BSub -> v = vfloat (fsub a b)) /\ (o = BMul -> v = vfloat (fmul a b)).
Proof.
  intros DX DY D. cbn [den] in D. rewrite DX, DY in D. cbn [bind] in D. unfold vfloat, lift2, val_scalar in D. cbn [as_arr bind] in D.
  rewrite !as_scalar_ascalar in D. cbn [bind] in D.
  repeat split; intros ->; cbn [sem_bin of_opt bind] in D; injection D as <-; reflexivity.
Qed.

(** The value of a lifted term is the sum of the values of its products, each
    summed over the counters it mentions. *)
Theorem lifts_sem e d : lifts true e d -> forall G X E v, dom_in G X -> pre G X e -> env_typed G E ->
  den E e = Ok v -> v = vfloat (dsum E d).
Proof.
  induction 1 as [e|c size acc init body elem d d' SB HL IH DS HC|x y dx dy d HX IHX HY IHY DA|x y dx dy d HX IHX HY IHY DA|x dx HX IHX|x y dx dy HX IHX HY IHY HDJ];
    intros G X E v HD HP HE D.
  - pose proof (type_sound _ _ E _ (p_typ _ _ _ HP) (p_sc _ _ _ HP) (p_int _ _ _ HP) (p_ext _ _ _ HP) HE) as T.
    rewrite D in T. cbn [nt] in T. rewrite (typed_float v T). unfold vfloat, dsum, pterm, own, fden. cbn [dot_pure contract products map filter csum suml prodl fold_right].
    rewrite (dval_ok _ _ _ D). do 3 f_equal. ring.
  - destruct (pre_sum G X c size acc init body elem SB HP) as (PE & TS & SS & IS & XS & FS & NC & NAC & CA).
    assert (HD' : dom_in (sum_ctx G c acc) (SV c :: SV acc :: X)).
    { intros s Hs. unfold sum_ctx in Hs. destruct (sym_eq_dec s (SV c)) as [->|N1]; [left; auto|].
      rewrite upd_neq in Hs by auto. destruct (sym_eq_dec s (SV acc)) as [->|N2]; [right; left; auto|].
      rewrite upd_neq in Hs by auto. right; right; auto. }
    pose proof (lifts_static _ _ HL _ _ HD' PE) as LD.
    assert (LD' : lstat G X (PFold c size acc init body) d') by (eapply lifts_static; eauto; econstructor; eauto).
    unfold dot_sum in DS. apply bind_ok in DS as (u & Q & DS). injection DS as <-. apply guard_ok in Q.
    destruct (HC eq_refl) as (C1 & C2 & C3). rewrite Forall_forall in C2.
    cbn [den] in D. apply bind_ok in D as (vs & DZ & D). apply bind_ok in D as (z & VZ & D).
    set (n := Z.to_nat z) in *. fold (acc_val E c acc init body n) in D.
    assert (NZ : natof E size = n).
    { unfold natof. rewrite (dval_ok _ _ _ DZ), VZ. reflexivity. }
    set (g := fun p E' => prodl (map (fden E') p)).
    set (h := fun k => suml (map (fun p => csum (own E p (contract d)) (g p) (upd E (SV c) (vnat k))) (products d))).
    assert (ALL : forall k v, acc_val E c acc init body k = Ok v -> v = vfloat (sumn k h)).
    { induction k as [|k IHk]; intros w Hw.
      - unfold acc_val in Hw. destruct SB as (-> & _). cbn [den bind iter_res] in Hw. injection Hw as <-. reflexivity.
      - rewrite acc_val_S in Hw. apply bind_ok in Hw as (w0 & Hw0 & Hw). apply IHk in Hw0. subst w0.
        set (E1 := fold_env E c acc k (vfloat (sumn k h))) in *.
        assert (TE1 : env_typed (sum_ctx G c acc) E1).
        { apply env_typed_upd; [apply env_typed_upd; auto; apply (vscalar_typed (SF _))|apply vint_typed]. }
        assert (EL : forall w, den E1 elem = Ok w -> w = vfloat (h k)).
        { intros w1 Hw1. rewrite (IH _ _ _ _ HD' PE TE1 Hw1). f_equal. unfold dsum, h. f_equal. apply map_ext_in. intros p Hp.
          unfold pterm. rewrite (own_agree G E1 E).
          - apply (csum_depends (fun s => ctxd G (contract d ++ [(c, size)]) s <> None)).
            + apply prod_depends. intros a Ha. apply (l_arg _ _ _ _ LD' p a Hp Ha).
            + intros s Hs. unfold E1, fold_env. destruct (sym_eq_dec s (SV c)) as [->|N1]; [rewrite !upd_eq; auto|].
              rewrite !(upd_neq _ (SV c)) by auto. rewrite upd_neq; auto. intros ->. apply Hs. simpl. rewrite map_app.
              destruct (mem acc _) eqn:M; [|destruct (G (SV acc)) eqn:QG; auto; exfalso; apply NAC, HD; congruence].
              exfalso. apply mem_In, in_app_or in M as [M|[M|[]]]; [|simpl in M; congruence].
              apply (new_counter _ _ _ _ _ LD M). simpl; auto.
          - intros q Hq. apply (l_size _ _ _ _ LD' q). apply in_or_app; auto.
          - intros s Hs. apply HD in Hs. unfold E1, fold_env. rewrite !upd_neq; auto; intros ->; auto. }
        assert (ST : forall a0, is_store acc a0 = true -> den E1 a0 = Ok (vfloat (sumn k h))).
        { intros a0 Ha. destruct a0; try discriminate. simpl in Ha. apply sym_eqb_eq in Ha. subst s. cbn [den]. unfold E1, fold_env.
          rewrite upd_neq by congruence. rewrite upd_eq. reflexivity. }
        destruct SB as (_ & a & b & -> & K). pose proof Hw as Hw1. cbn [den] in Hw1.
        apply bind_ok in Hw1 as (va & Da & Hw1). apply bind_ok in Hw1 as (vb & Db & _). cbn [sumn].
        destruct K as [(Ka & ->)|(_ & Kb & ->)].
        + rewrite (EL _ Db) in Db. destruct (bin_floats _ _ _ _ _ _ _ (ST _ Ka) Db Hw) as (QQ & _). apply QQ; auto.
        + rewrite (EL _ Da) in Da. destruct (bin_floats _ _ _ _ _ _ _ Da (ST _ Kb) Hw) as (QQ & _). rewrite (QQ eq_refl). f_equal. ring. }
    rewrite (ALL _ _ D). f_equal. unfold h, dsum. cbn [contract products].
    rewrite <- (suml_sumn LAWS). f_equal. apply map_ext_in. intros p Hp. unfold pterm.
    change (sumn n (fun k => csum (own E p (contract d)) (g p) (upd E (SV c) (vnat k)))) with (csum ((c, n) :: own E p (contract d)) (g p) E).
    assert (O : own E p (contract d ++ [(c, size)]) = own E p (contract d) ++ [(c, n)]).
    { unfold own. rewrite filter_app, map_app. f_equal. cbn [filter fst]. destruct (C2 p Hp) as (a & Ha & K).
      replace (mentions c p) with true; [cbn [map fst snd]; rewrite NZ; reflexivity|].
      symmetry. apply existsb_exists. exists a. split; auto. apply smem_In; auto. }
    rewrite O. symmetry. apply (csum_perm LAWS).
    + intros E1 E2 H12. apply (prod_depends (ctxd G (contract d ++ [(c, size)]))); auto. intros a Ha. apply (l_arg _ _ _ _ LD' p a Hp Ha).
    + symmetry. apply Permutation_cons_append.
    + rewrite <- O. apply own_nodup. apply (l_nd _ _ _ _ LD').
  - destruct (pre_bin _ _ _ _ _ (or_introl eq_refl) HP) as [PX PY].
    unfold dot_add in DA. apply bind_ok in DA as (u & VA & DA). injection DA as <-. apply guard_ok in VA.
    pose proof D as D0. cbn [den] in D0. apply bind_ok in D0 as (vx & DX & D0). apply bind_ok in D0 as (vy & DY & _).
    rewrite (IHX _ _ _ _ HD PX HE DX) in DX. rewrite (IHY _ _ _ _ HD PY HE DY) in DY.
    destruct (bin_floats _ _ _ _ _ _ _ DX DY D) as (Q & _). rewrite (Q eq_refl). f_equal. symmetry.
    apply dsum_union with (G := G) (X := X) (e := PBin BAdd x y); auto.
    + eapply lstat_up; [| |eapply lifts_static; eauto]; intros s Hs; simpl; apply in_or_app; auto.
    + eapply lstat_up; [| |eapply lifts_static; eauto]; intros s Hs; simpl; apply in_or_app; auto.
  - destruct (pre_bin _ _ _ _ _ (or_intror (or_introl eq_refl)) HP) as [PX PY].
    unfold dot_add in DA. apply bind_ok in DA as (u & VA & DA). injection DA as <-. apply guard_ok in VA.
    pose proof D as D0. cbn [den] in D0. apply bind_ok in D0 as (vx & DX & D0). apply bind_ok in D0 as (vy & DY & _).
    rewrite (IHX _ _ _ _ HD PX HE DX) in DX. rewrite (IHY _ _ _ _ HD PY HE DY) in DY.
    destruct (bin_floats _ _ _ _ _ _ _ DX DY D) as (_ & Q & _). rewrite (Q eq_refl). f_equal.
    rewrite (dsum_union G X (PBin BSub x y) dx (dot_neg dy)); auto.
    + rewrite (dsum_neg G X y) by (eapply lifts_static; eauto). ring.
    + eapply lstat_up; [| |eapply lifts_static; eauto]; intros s Hs; simpl; apply in_or_app; auto.
    + apply lstat_neg. eapply lstat_up; [| |eapply lifts_static; eauto]; intros s Hs; simpl; apply in_or_app; auto.
  - pose proof (pre_neg _ _ _ HP) as PX. pose proof D as D0. cbn [den] in D0. apply bind_ok in D0 as (vx & DX & D0).
    rewrite (IHX _ _ _ _ HD PX HE DX) in D0. unfold vfloat, lift1, val_scalar in D0. cbn [as_arr bind] in D0.
    rewrite !as_scalar_ascalar in D0. cbn [bind sem_un of_opt] in D0. injection D0 as <-.
    rewrite (dsum_neg G X x) by (eapply lifts_static; eauto). reflexivity.
  - destruct (pre_bin _ _ _ _ _ (or_intror (or_intror eq_refl)) HP) as [PX PY].
    pose proof D as D0. cbn [den] in D0. apply bind_ok in D0 as (vx & DX & D0). apply bind_ok in D0 as (vy & DY & _).
    rewrite (IHX _ _ _ _ HD PX HE DX) in DX. rewrite (IHY _ _ _ _ HD PY HE DY) in DY.
    destruct (bin_floats _ _ _ _ _ _ _ DX DY D) as (_ & _ & Q). rewrite (Q eq_refl). f_equal. symmetry.
    apply dsum_mul with (G := G) (X := X) (e := PBin BMul x y); auto.
    + eapply lstat_up; [| |eapply lifts_static; eauto]; intros s Hs; simpl; apply in_or_app; auto.
    + eapply lstat_up; [| |eapply lifts_static; eauto]; intros s Hs; simpl; apply in_or_app; auto.
Qed.
End LiftSem.
