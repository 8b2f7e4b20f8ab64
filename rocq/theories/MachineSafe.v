(** No run of array code, whatever its markers (as long as they are on
    temporaries), its binders and its variables share, changes a buffer that
    existed before the run. *)
From Verif Require Import Base Scalar Tensor Types Sym Phi Den NdOps Term PhiTerm Yarr YTerm
  Machine MachineSim MachineRun.

Section Safe.
Context {FO : FloatOps} {EX : Externs} {PO : PadOps}.
Variable cl : arr -> nat.
Variable copies : heap -> href -> bool.
Variable shares : heap -> list href -> arr -> option href.

(** Library calls return an operand's buffer or a new one. *)
Definition shares_in : Prop := forall h ops b r, shares h ops b = Some r -> exists r0, In r0 ops /\ rloc r0 = rloc r.

Definition run {A} (h : heap) (E : henv) (m : M A) (P : heap -> A -> Prop) : Prop :=
  match m (h, E) with
  | Ok (a, (h', E')) => hext h h' /\ env_ok h' E' /\ P h' a
  | Err _ => True
  end.

Lemma run_bind {A B} h E (m : M A) (k : A -> M B) (P : heap -> A -> Prop) (Q : heap -> B -> Prop) :
  run h E m P ->
  (forall a h1 E1, hext h h1 -> env_ok h1 E1 -> P h1 a -> run h1 E1 (k a) Q) ->
  run h E (mbind m k) Q.
Proof.
  unfold run, mbind. destruct (m (h, E)) as [[a [h1 E1]]|]; simpl; auto. intros (X & EO & HP) H.
  specialize (H a h1 E1 X EO HP). destruct (k a (h1, E1)) as [[b [h2 E2]]|]; auto. destruct H as (X2 & EO2 & HQ).
  split; auto. eapply hext_trans; eauto.
Qed.
Lemma run_ret {A} h E (a : A) (P : heap -> A -> Prop) : env_ok h E -> P h a -> run h E (mret a) P.
Proof. intros EO H. unfold run. simpl. auto using hext_refl. Qed.
Lemma run_lift {A} h E (r : res A) : env_ok h E -> run h E (mlift r) (fun h' a => h' = h /\ r = Ok a).
Proof. intros EO. unfold run, mlift. destruct r; simpl; auto using hext_refl. Qed.
Lemma run_read h E r : env_ok h E -> run h E (mread r) (fun h' _ => h' = h).
Proof. intros EO. unfold run. simpl. auto using hext_refl. Qed.
Lemma run_mono {A} h E (m : M A) (P Q : heap -> A -> Prop) :
  run h E m P -> (forall h' a, hext h h' -> P h' a -> Q h' a) -> run h E m Q.
Proof.
  unfold run. destruct (m (h, E)) as [[a [h1 E1]]|]; auto. intros (X & EO & HP) H. auto.
Qed.
Lemma run_lift' {A B} h E (r : res A) (k : A -> M B) Q :
  (forall a, r = Ok a -> run h E (k a) Q) -> run h E (mbind (mlift r) k) Q.
Proof. intros H. unfold run, mbind, mlift in *. destruct r as [a|]; simpl; [apply H|]; auto. Qed.
Lemma run_read' {B} h E r (k : arr -> M B) Q :
  (forall a, run h E (k a) Q) -> run h E (mbind (mread r) k) Q.
Proof. intros H. unfold run, mbind, mread in *. simpl. apply H. Qed.
Lemma run_set' {B} h E x v (k : unit -> M B) Q :
  run h (upd E x v) (k tt) Q -> run h E (mbind (mset x v) k) Q.
Proof. intros H. exact H. Qed.
Lemma run_del' {B} h E x (k : unit -> M B) Q :
  run h (del E x) (k tt) Q -> run h E (mbind (mdel x) k) Q.
Proof. intros H. unfold run, mbind, mdel in *. simpl. destruct (E x); simpl; auto. Qed.

(** The result of [e] started with [n] buffers. *)
Definition fresh (n : nat) (e : yarr) (h : heap) (v : hval) : Prop :=
  hval_ok h v /\ (is_temporary e = true -> exists L, v = HA (whole L) /\ n <= L).

Lemma run_new n e h E a : env_ok h E -> n <= length h -> run h E (mnew a) (fresh n e).
Proof.
  intros EO Hn. unfold run. simpl. split; [apply hext_app|]. split; [eapply env_ok_ext; eauto; apply hext_app|].
  split; [|eauto]. unfold hval_ok, ref_ok. simpl. rewrite app_length. simpl. lia.
Qed.
Lemma run_alloc h E a : env_ok h E -> run h E (alloc a) (fun h' r => ref_ok h' r).
Proof.
  intros EO. unfold run. simpl. split; [apply hext_app|]. split; [eapply env_ok_ext; eauto; apply hext_app|].
  unfold ref_ok. simpl. rewrite app_length. simpl. lia.
Qed.
Lemma run_view h E f r : env_ok h E -> ref_ok h r -> run h E (mview f r) (fun h' r => ref_ok h' r).
Proof.
  intros EO R. apply run_read'. intros a. apply run_lift'. intros b _. apply run_ret; auto.
Qed.
Lemma run_mapM {A B} h E (f : A -> M B) (P : heap -> B -> Prop) (R : heap -> A -> Prop) l :
  (forall h h' b, hext h h' -> P h b -> P h' b) -> (forall h h' a, hext h h' -> R h a -> R h' a) ->
  env_ok h E -> Forall (R h) l ->
  (forall a h1 E1, In a l -> hext h h1 -> env_ok h1 E1 -> R h1 a -> run h1 E1 (f a) P) ->
  run h E (mmapM f l) (fun h' bs => Forall (P h') bs).
Proof.
  intros MP MR. revert h E. induction l as [|a l IH]; intros h E EO FR H; cbn [mmapM]; [apply run_ret; auto|].
  inversion FR as [|a' l' Ra Rl]; subst.
  eapply run_bind; [apply H; simpl; auto using hext_refl|]. intros b h1 E1 X1 EO1 P1.
  eapply run_bind.
  { apply IH; auto.
    - eapply Forall_impl; [|exact Rl]. eauto.
    - intros a' h2 E2 Ha X2 EO2 R2. apply H; simpl; auto. eapply hext_trans; eauto. }
  intros bs h2 E2 X2 EO2 P2. apply run_ret; auto. constructor; eauto.
Qed.

Definition oval (h : heap) (o : option hval) : Prop := match o with Some v => hval_ok h v | None => True end.
Lemma oval_ext h h' o : hext h h' -> oval h o -> oval h' o.
Proof. destruct o; simpl; auto. intros X. apply hval_ok_ext; auto. Qed.
Lemma vals_ext h h' l : hext h h' -> Forall (hval_ok h) l -> Forall (hval_ok h') l.
Proof. intros X. apply Forall_impl. intros v. apply hval_ok_ext; auto. Qed.
Lemma refs_ext h h' l : hext h h' -> Forall (ref_ok h) l -> Forall (ref_ok h') l.
Proof. intros X. apply Forall_impl. intros v. apply ref_ok_ext; auto. Qed.
Lemma ha_ok h v r : hval_ok h v -> ha v = Ok r -> ref_ok h r.
Proof. destruct v; simpl; [|discriminate]. congruence. Qed.
Lemma has_ok h vs rs : Forall (hval_ok h) vs -> mapM ha vs = Ok rs -> Forall (ref_ok h) rs.
Proof.
  intros H Q. apply mapM_Forall2 in Q. induction Q; auto. inversion H; subst. constructor; auto. eapply ha_ok; eauto.
Qed.

Lemma run_loop {A} (P : heap -> A -> Prop) (f : nat -> A -> M A) n :
  forall k h E a, (forall k h1 E1 a, hext h h1 -> env_ok h1 E1 -> P h1 a -> run h1 E1 (f k a) P) ->
  env_ok h E -> P h a -> run h E (mloop f k n a) P.
Proof.
  induction n as [|n IH]; intros k h E a H EO HP; cbn [mloop]; [apply run_ret; auto|].
  eapply run_bind; [apply H; auto using hext_refl|]. intros b h1 E1 X1 EO1 P1. apply IH; auto.
  intros k2 h2 E2 c X2. apply H. eapply hext_trans; eauto.
Qed.

Lemma run_readints h E l : env_ok h E ->
  run h E (mmapM (momap (fun v => mbind (mlift (ha v)) (fun r => mbind (mread r) (fun a => mlift (as_int a))))) l)
    (fun h' (_ : list (option Z)) => True).
Proof.
  intros EO. eapply run_mono; [apply (run_mapM h E _ (fun _ _ => True) (fun _ _ => True)); auto|auto].
  - apply Forall_forall. auto.
  - intros [v|] h1 E1 _ X1 EO1 _; simpl; [|apply run_ret; auto].
    apply (run_bind h1 E1 _ _ (fun _ _ => True)); [|intros; apply run_ret; auto].
    apply run_lift'. intros r _. apply run_read'. intros a. eapply run_mono; [apply run_lift; auto|auto].
Qed.
Lemma run_readopts h E l : env_ok h E ->
  run h E (mmapM (momap (fun v => mbind (mlift (ha v)) mread)) l) (fun h' (_ : list (option arr)) => True).
Proof.
  intros EO. eapply run_mono; [apply (run_mapM h E _ (fun _ _ => True) (fun _ _ => True)); auto|auto].
  - apply Forall_forall. auto.
  - intros [v|] h1 E1 _ X1 EO1 _; simpl; [|apply run_ret; auto].
    apply (run_bind h1 E1 _ _ (fun _ _ => True)); [|intros; apply run_ret; auto].
    apply run_lift'. intros r _. eapply run_mono; [apply run_read; auto|auto].
Qed.
Lemma run_reads h E rs : env_ok h E -> run h E (mmapM mread rs) (fun h' (_ : list arr) => h' = h).
Proof. intros EO. unfold run. rewrite mreads. auto using hext_refl. Qed.

Lemma run_inplace h E m1 m2 (f : arr -> arr -> res arr) e1 eb :
  is_temporary e1 = true ->
  run h E m1 (fresh (length h) e1) ->
  (forall h1 E1, hext h h1 -> env_ok h1 E1 -> run h1 E1 m2 hval_ok) ->
  run h E (mbind m1 (fun v => mbind m2 (fun w =>
      mbind (mlift (ha v)) (fun out => mbind (mlift (ha w)) (fun q =>
      mbind (mread out) (fun a => mbind (mread q) (fun b =>
      mbind (mlift (f a b)) (fun c => mbind (mwrite out c) (fun _ => mret (HA out)))))))))) (fresh (length h) eb).
Proof.
  intros T R1 R2. unfold run in *. unfold mbind at 1.
  destruct (m1 (h, E)) as [[v [h1 E1]]|]; simpl; auto. destruct R1 as (X1 & EO1 & HV & HT).
  destruct (HT T) as (L & -> & HL). specialize (R2 h1 E1 X1 EO1). unfold mbind at 1.
  destruct (m2 (h1, E1)) as [[w [h2 E2]]|]; simpl; auto. destruct R2 as (X2 & EO2 & HW).
  unfold mbind, mlift. simpl. destruct (ha w) as [q|]; simpl; auto.
  destruct (f _ _) as [c|]; simpl; auto. unfold mwrite. cbn [fst snd].
  destruct (guard _ _) as [u|]; simpl; auto. destruct (guard _ _) as [u'|]; simpl; auto.
  destruct (cast_into _ _) as [c'|]; simpl; auto.
  assert (X3 : hext h (set_nth L c' h2)).
  { destruct (hext_trans _ _ _ X1 X2) as [t ->]. rewrite set_nth_app by auto. eexists; reflexivity. }
  assert (LE : forall r, ref_ok h2 r -> ref_ok (set_nth L c' h2) r).
  { intros r. unfold ref_ok. rewrite set_nth_length. auto. }
  assert (LV : forall v, hval_ok h2 v -> hval_ok (set_nth L c' h2) v).
  { intros [r|l]; simpl; auto. apply Forall_impl; auto. }
  split; auto. split; [intros s v Hs; apply LV; eapply EO2; eauto|].
  split; [|eauto]. apply LV. eapply hval_ok_ext; eauto.
Qed.

Hypothesis SHI : shares_in.
Lemma run_share n e h E ops b : env_ok h E -> is_temporary e = false -> Forall (ref_ok h) ops -> n <= length h ->
  run h E (mshare shares ops b) (fresh n e).
Proof.
  intros EO T R Hn. unfold run, mshare. cbn [fst snd]. destruct (shares h ops b) as [r|] eqn:Es.
  - split; [apply hext_refl|]. split; auto. split; [|congruence].
    destruct (SHI _ _ _ _ Es) as (r0 & H0 & H1). simpl. unfold ref_ok. rewrite <- H1.
    rewrite Forall_forall in R. apply R. auto.
  - apply run_new; auto.
Qed.

Lemma run_preprocess h E v : env_ok h E -> hval_ok h v -> run h E (preprocess copies v) hval_ok.
Proof.
  assert (C1 : forall h E r, env_ok h E -> ref_ok h r -> run h E (mcopy1 copies r) (fun h' r => ref_ok h' r)).
  { intros h1 E1 r EO R. unfold run, mcopy1. cbn [fst]. destruct (copies h1 r).
    - apply run_alloc; auto.
    - auto using hext_refl. }
  intros EO HV. destruct v as [r|l]; simpl in *.
  - eapply run_bind; [apply C1; auto|]. intros r' h1 E1 X1 EO1 R1. apply run_ret; auto.
  - eapply run_bind.
    { apply (run_mapM h E _ (fun h r => ref_ok h r) (fun h r => ref_ok h r)); auto.
      - intros ? ? ? X. apply ref_ok_ext; auto.
      - intros ? ? ? X. apply ref_ok_ext; auto. }
    intros l' h1 E1 X1 EO1 R1. apply run_ret; auto.
Qed.

Lemma run_upd h E s v : env_ok h E -> hval_ok h v -> env_ok h (upd E s v).
Proof. apply env_ok_upd. Qed.

Definition consts_in (h : heap) (e : yarr) : Prop := forall a, sub_of (YConst a) e -> cl a < length h.
Definition marks_tmp (e : yarr) : Prop := forall o a b i, sub_of (YBin o a b i) e ->
  (i = Some 0 -> is_temporary a = true) /\ (i = Some 1 -> is_temporary b = true).
Definition sclaim (e : yarr) : Prop := forall h E, env_ok h E -> consts_in h e -> marks_tmp e ->
  run h E (mexec cl copies shares e) (fresh (length h) e).

Lemma sclaim_sub e c h h1 E1 : sclaim c -> In c (ysubs e) -> consts_in h e -> marks_tmp e ->
  hext h h1 -> env_ok h1 E1 -> run h1 E1 (mexec cl copies shares c) (fresh (length h1) c).
Proof.
  intros C Hc K Mk X EO. apply C; auto.
  - intros a Ha. apply hext_length in X. eapply Nat.lt_le_trans; [|exact X]. apply K. eapply sub_step; eauto.
  - intros o a b i H. apply (Mk o a b i). eapply sub_step; eauto.
Qed.

Lemma fresh_ok n e h v : fresh n e h v -> hval_ok h v.
Proof. intros [H _]. auto. Qed.

Lemma run_operands e ops h h1 E1 : consts_in h e -> marks_tmp e -> incl ops (ysubs e) -> Forall sclaim ops ->
  hext h h1 -> env_ok h1 E1 ->
  run h1 E1 (mmapM (mexec cl copies shares) ops) (fun h' vs => Forall (hval_ok h') vs).
Proof.
  intros K Mk I C X EO. apply (run_mapM h1 E1 _ hval_ok (fun _ _ => True)); auto.
  - intros ? ? ? Y. apply hval_ok_ext; auto.
  - apply Forall_forall; auto.
  - intros a h2 E2 Ha X2 EO2 _. rewrite Forall_forall in C. eapply run_mono.
    + apply (sclaim_sub e a h); auto. eapply hext_trans; eauto.
    + intros. eapply fresh_ok; eauto.
Qed.
Lemma run_opt_operands e ops h h1 E1 : consts_in h e -> marks_tmp e -> incl (somes ops) (ysubs e) -> Forall (oall sclaim) ops ->
  hext h h1 -> env_ok h1 E1 ->
  run h1 E1 (mmapM (momap (mexec cl copies shares)) ops) (fun h' vs => Forall (oval h') vs).
Proof.
  intros K Mk I C X EO. apply (run_mapM h1 E1 _ oval (fun _ _ => True)); auto.
  - intros ? ? ? Y. apply oval_ext; auto.
  - apply Forall_forall; auto.
  - intros [a|] h2 E2 Ha X2 EO2 _; simpl; [|apply run_ret; simpl; auto]. rewrite Forall_forall in C.
    eapply run_bind.
    + apply (sclaim_sub e a h); auto; [apply (C _ Ha)| |eapply hext_trans; eauto].
      apply I. clear -Ha. induction ops as [|[x|] l IH]; simpl in *; [tauto| |].
      * destruct Ha as [Ha|Ha]; [left; congruence|right; auto].
      * destruct Ha as [Ha|Ha]; [discriminate|auto].
    + intros v h3 E3 X3 EO3 G3. apply run_ret; auto. simpl. eapply fresh_ok; eauto.
Qed.

Lemma run_mapviews f h E rs : env_ok h E -> Forall (ref_ok h) rs -> run h E (mmapM (mview f) rs) (fun h' l => Forall (ref_ok h') l).
Proof.
  intros EO R. apply (run_mapM h E _ (fun h r => ref_ok h r) (fun h r => ref_ok h r)); auto.
  - intros ? ? ? X. apply ref_ok_ext; auto.
  - intros ? ? ? X. apply ref_ok_ext; auto.
  - intros a h1 E1 _ X1 EO1 R1. apply run_view; auto.
Qed.
Lemma run_picknew ax f h E rs : env_ok h E -> Forall (ref_ok h) rs ->
  run h E (mmapM (mpick_new ax f) rs) (fun h' l => Forall (ref_ok h') l).
Proof.
  intros EO R. apply (run_mapM h E _ (fun h r => ref_ok h r) (fun h r => ref_ok h r)); auto.
  - intros ? ? ? X. apply ref_ok_ext; auto.
  - intros ? ? ? X. apply ref_ok_ext; auto.
  - intros a h1 E1 _ X1 EO1 R1. apply run_read'. intros b. apply run_lift'. intros c _. apply run_alloc; auto.
Qed.

Lemma run_tree get_ ax h0 fuel : forall n h E vals acc,
  (forall h E a b, hext h0 h -> env_ok h E -> Forall (ref_ok h) a -> Forall (ref_ok h) b ->
     run h E (get_ a b) (fun h' l => Forall (ref_ok h') l)) ->
  hext h0 h -> env_ok h E -> Forall (ref_ok h) vals -> Forall (ref_ok h) acc ->
  run h E (mtree get_ ax fuel n vals acc) (fun h' l => Forall (ref_ok h') l).
Proof.
  induction fuel as [|fuel IH]; intros n h E vals acc H X EO RV RA; cbn [mtree]; [exact Logic.I|].
  destruct (1 <? n).
  - eapply run_bind with (P := fun h' l => Forall (ref_ok h') l).
    { destruct (Nat.odd n); [|apply run_ret; auto].
      eapply run_bind; [apply run_picknew; auto|]. intros l h1 E1 X1 EO1 R1. apply H; eauto using hext_trans, refs_ext. }
    intros acc1 h1 E1 X1 EO1 R1.
    eapply run_bind; [apply run_mapviews; eauto using refs_ext|]. intros p h2 E2 X2 EO2 R2.
    eapply run_bind; [apply run_mapviews; eauto using refs_ext|]. intros q h3 E3 X3 EO3 R3.
    eapply run_bind; [apply H; eauto using hext_trans, refs_ext|]. intros vals1 h4 E4 X4 EO4 R4.
    apply IH; eauto using hext_trans, refs_ext.
  - destruct (n =? 1); [|apply run_ret; auto].
    eapply run_bind; [apply run_picknew; auto|]. intros l h1 E1 X1 EO1 R1. apply H; eauto using hext_trans, refs_ext.
Qed.

Lemma hwrap_ok h sg v l : hval_ok h v -> hwrap sg v = Ok l -> Forall (ref_ok h) l.
Proof. destruct sg, v; simpl; try discriminate; intros H Q; injection Q as <-; auto. Qed.
Lemma hunwrap_ok h sg l v : Forall (ref_ok h) l -> hunwrap sg l = Ok v -> hval_ok h v.
Proof.
  destruct sg; simpl; [destruct l as [|r [|]]; try discriminate|]; intros H Q; injection Q as <-; simpl; auto.
  inversion H; auto.
Qed.

Lemma run_reduce h (E : henv) x y m ax acc vals : env_ok h E -> hval_ok h acc -> hval_ok h vals ->
  (forall h1 E1, hext h h1 -> env_ok h1 E1 -> run h1 E1 m hval_ok) ->
  run h E (mreduce x y m ax acc vals) hval_ok.
Proof.
  intros EO HA HV HM. unfold mreduce. set (sg := match vals with HA _ => true | HT _ => false end). clearbody sg.
  apply run_lift'. intros vs Hvs. apply run_lift'. intros ac Hac.
  apply (hwrap_ok h) in Hvs; auto. apply (hwrap_ok h) in Hac; auto.
  eapply run_bind with (P := fun _ _ => True).
  { eapply run_mono; [apply (run_mapM h E _ (fun _ _ => True) (fun _ _ => True)); auto|auto].
    - apply Forall_forall; auto.
    - intros r h1 E1 _ X1 EO1 _. apply run_read'. intros a. eapply run_mono; [apply run_lift; auto|auto]. }
  intros ns h1 E1 X1 EO1 _. destruct ns as [|n ns]; [exact Logic.I|]. apply run_lift'. intros u _.
  eapply run_bind; [apply run_mapviews; eauto using refs_ext|]. intros ac1 h2 E2 X2 EO2 R2. cbv zeta.
  eapply run_bind.
  { apply (run_tree _ ax h); auto.
    - intros h3 E3 a b X3 EO3 Ra Rb. apply run_lift'. intros va Hva. apply run_set'.
      apply run_lift'. intros vb Hvb. apply run_set'.
      assert (EO4 : env_ok h3 (upd (upd E3 x va) y vb))
        by (exact (env_ok_upd _ _ _ _ (env_ok_upd _ _ _ _ EO3 (hunwrap_ok _ _ _ _ Ra Hva)) (hunwrap_ok _ _ _ _ Rb Hvb))).
      eapply run_bind; [apply HM; auto|]. intros v h4 E4 X4 EO4' HV4.
      eapply run_mono; [apply run_lift; auto|]. intros h5 l _ [-> Hl]. eapply hwrap_ok; eauto.
    - eauto using hext_trans.
    - eapply refs_ext; [|exact Hvs]. eauto using hext_trans. }
  intros ac2 h3 E3 X3 EO3 R3.
  eapply run_bind with (P := fun h' _ => h' = h3).
  { destruct (n =? 0); [apply run_ret; auto|]. apply run_del'. unfold run, mdel. simpl.
    destruct (del E3 x y); auto. split; [apply hext_refl|]. split; auto. apply env_ok_del, env_ok_del; auto. }
  intros u' h4 E4 X4 EO4 ->. eapply run_bind; [apply run_mapviews; auto|]. intros ac3 h5 E5 X5 EO5 R5.
  eapply run_mono; [apply run_lift; auto|]. intros h6 v _ [-> Hv]. exact (hunwrap_ok _ _ _ _ R5 Hv).
Qed.

Ltac lift_ha := apply run_lift'; let q := fresh "q" in let Hq := fresh "Hq" in intros q Hq.

Theorem mexec_safe e : sclaim e.
Proof.
  induction e using yarr_ind'; intros h E EO K Mk.
  all: match goal with K : consts_in ?hh ?e0 |- _ =>
    assert (SUB : forall c h1 E1, sclaim c -> In c (ysubs e0) -> hext hh h1 -> env_ok h1 E1 ->
      run h1 E1 (mexec cl copies shares c) (fresh (length h1) c))
      by (intros; apply (sclaim_sub e0 _ hh); auto);
    assert (SUBV : forall c h1 E1, sclaim c -> In c (ysubs e0) -> hext hh h1 -> env_ok h1 E1 ->
      run h1 E1 (mexec cl copies shares c) hval_ok)
      by (intros; eapply run_mono; [eapply SUB; eauto|intros; eapply fresh_ok; eauto])
  end.
  all: pose proof (hext_refl h) as X0.
  all: cbn [mexec ysubs] in *.
  all: try solve [
    eapply run_bind; [apply SUBV; simpl; eauto|]; intros v h1 E1 X1 EO1 V1;
    lift_ha; apply run_read'; intros a; lift_ha; apply run_new; auto; apply hext_length; auto ].
  all: try solve [
    eapply run_bind; [apply SUBV; simpl; eauto|]; intros v h1 E1 X1 EO1 V1;
    apply run_lift'; intros r Hr; eapply run_bind; [apply run_view; auto; eapply ha_ok; eauto|];
    intros r' h2 E2 X2 EO2 R2; apply run_ret; auto; split; [auto|discriminate] ].
  - apply run_ret; auto. split; [|discriminate]. apply K. constructor.
  - unfold run, mget. simpl. destruct (E (SV x)) as [v|] eqn:Ex; simpl; auto. split; auto. split; auto.
    split; [eapply EO; eauto|discriminate].
  - (* Let *) eapply run_bind; [apply SUBV; simpl; eauto|]. intros v h1 E1 X1 EO1 V1.
    eapply run_bind; [apply run_preprocess; auto|]. intros v' h2 E2 X2 EO2 V2. apply run_set'.
    eapply run_bind; [apply SUBV; simpl; eauto using hext_trans, env_ok_upd|]. intros w h3 E3 X3 EO3 V3.
    apply run_del'. apply run_ret; [apply env_ok_del; auto|]. split; [auto|discriminate].
  - (* Concat *) eapply run_bind; [eapply (run_operands (YConcat ops ax)); eauto; apply incl_refl|].
    intros vs h1 E1 X1 EO1 V1. lift_ha. eapply run_bind; [apply run_reads; auto|]. intros l h2 E2 X2 EO2 ->.
    lift_ha. apply run_new; auto. apply hext_length; auto.
  - (* Gather *) eapply run_bind; [apply SUBV; simpl; eauto|]. intros v h1 E1 X1 EO1 V1.
    eapply run_bind; [apply SUBV; simpl; eauto|]. intros w h2 E2 X2 EO2 V2.
    lift_ha. lift_ha. apply run_read'; intros. apply run_read'; intros. lift_ha. apply run_new; auto.
    apply hext_length; eauto using hext_trans.
  - (* Take *) eapply run_bind; [apply SUBV; simpl; eauto|]. intros v h1 E1 X1 EO1 V1.
    eapply run_bind; [eapply (run_opt_operands (YTake e items)); eauto; intros c Hc; simpl; auto|].
    intros vs h2 E2 X2 EO2 V2. eapply run_bind; [apply run_readopts; auto|]. intros l h3 E3 X3 EO3 _.
    apply run_lift'. intros r Hr. apply run_read'. intros a. lift_ha.
    apply run_share; auto; [|apply hext_length; eauto using hext_trans].
    constructor; auto. eapply ha_ok; eauto. eapply hval_ok_ext; [|exact V1]. eauto using hext_trans.
  - (* Slice *) eapply run_bind; [apply SUBV; simpl; eauto|]. intros v h1 E1 X1 EO1 V1.
    eapply run_bind; [eapply (run_opt_operands (YSlice e l r)); eauto; intros c Hc; simpl; right; apply in_or_app; auto|].
    intros vs h2 E2 X2 EO2 V2.
    eapply run_bind; [eapply (run_opt_operands (YSlice e l r)); eauto using hext_trans; intros c Hc; simpl; right; apply in_or_app; auto|].
    intros us h3 E3 X3 EO3 V3.
    eapply run_bind; [apply run_readints; auto|]. intros zl h4 E4 X4 EO4 _.
    eapply run_bind; [apply run_readints; auto|]. intros zr h5 E5 X5 EO5 _.
    apply run_lift'. intros q Hq. eapply run_bind; [apply run_view; auto|].
    + eapply ha_ok; eauto. eapply hval_ok_ext; [|exact V1]. eauto using hext_trans.
    + intros q' h6 E6 X6 EO6 R6. apply run_ret; auto. split; [auto|discriminate].
  - (* Pad *) eapply run_bind; [apply SUBV; simpl; eauto|]. intros v h1 E1 X1 EO1 V1.
    eapply run_bind; [eapply (run_opt_operands (YPad e l r)); eauto; intros c Hc; simpl; right; apply in_or_app; auto|].
    intros vs h2 E2 X2 EO2 V2.
    eapply run_bind; [eapply (run_opt_operands (YPad e l r)); eauto using hext_trans; intros c Hc; simpl; right; apply in_or_app; auto|].
    intros us h3 E3 X3 EO3 V3.
    eapply run_bind; [apply run_readints; auto|]. intros zl h4 E4 X4 EO4 _.
    eapply run_bind; [apply run_readints; auto|]. intros zr h5 E5 X5 EO5 _.
    lift_ha. apply run_read'; intros. lift_ha. apply run_new; auto.
    apply hext_length; eauto 6 using hext_trans.
  - (* Repeat *) eapply run_bind; [apply SUBV; simpl; eauto|]. intros v h1 E1 X1 EO1 V1.
    eapply run_bind; [apply SUBV; simpl; eauto|]. intros w h2 E2 X2 EO2 V2.
    lift_ha. lift_ha. apply run_read'; intros. lift_ha. apply run_read'; intros. lift_ha. apply run_new; auto.
    apply hext_length; eauto using hext_trans.
  - (* Bin *)
    assert (PLAIN : run h E (mbind (mexec cl copies shares e1) (fun v => mbind (mexec cl copies shares e2) (fun w =>
      mbind (mlift (ha v)) (fun r => mbind (mlift (ha w)) (fun q =>
      mbind (mread r) (fun a => mbind (mread q) (fun b =>
      mbind (mlift (nd_bin o a b)) mnew))))))) (fresh (length h) (YBin o e1 e2 i))).
    { eapply run_bind; [apply SUBV; simpl; eauto|]. intros v h1 E1 X1 EO1 V1.
      eapply run_bind; [apply SUBV; simpl; eauto|]. intros w h2 E2 X2 EO2 V2.
      lift_ha. lift_ha. apply run_read'; intros. apply run_read'; intros. lift_ha. apply run_new; auto.
      apply hext_length; eauto using hext_trans. }
    destruct (Mk o e1 e2 i (sub_refl _)) as [M0 M1].
    destruct i as [[|[|i]]|]; try exact PLAIN.
    + apply (run_inplace h E _ _ (nd_bin o) e1); auto; [apply SUB; simpl; auto|].
      intros. apply SUBV; simpl; auto.
    + apply (run_inplace h E _ _ (fun b a => nd_bin o a b) e2); auto; [apply SUB; simpl; auto|].
      intros. apply SUBV; simpl; auto.
  - (* Where *) eapply run_bind; [apply SUBV; simpl; eauto|]. intros v h1 E1 X1 EO1 V1.
    eapply run_bind; [apply SUBV; simpl; eauto|]. intros w h2 E2 X2 EO2 V2.
    eapply run_bind; [apply SUBV; simpl; eauto using hext_trans|]. intros u h3 E3 X3 EO3 V3.
    lift_ha. lift_ha. lift_ha. do 3 (apply run_read'; intros). lift_ha. apply run_new; auto.
    apply hext_length; eauto using hext_trans.
  - (* Fold *) eapply run_bind; [apply SUBV; simpl; eauto|]. intros v h1 E1 X1 EO1 V1.
    eapply run_bind; [apply SUBV; simpl; eauto|]. intros w h2 E2 X2 EO2 V2.
    lift_ha. apply run_read'; intros. apply run_lift'. intros z Hz.
    eapply run_bind.
    { apply (run_loop hval_ok); auto; [|eapply hval_ok_ext; eauto].
      intros k h3 E3 a' X3 EO3 V3. apply run_set'.
      eapply run_bind; [apply (run_new 0 (YConst (ascalar (SI 0)))); [apply env_ok_upd; auto|lia]|].
      intros c' h4 E4 X4 EO4 [V4 _]. apply run_set'. apply SUBV; simpl; auto.
      - eauto using hext_trans.
      - apply env_ok_upd; auto. }
    intros v' h3 E3 X3 EO3 V3. eapply run_bind with (P := fun h' _ => h' = h3).
    { destruct (Z.to_nat z =? 0); [apply run_ret; auto|]. apply run_del'. unfold run, mdel. simpl.
      destruct (del E3 (SV acc) (SV c)); auto. split; [apply hext_refl|]. split; auto. apply env_ok_del, env_ok_del; auto. }
    intros u h4 E4 X4 EO4 ->. apply run_ret; auto. split; [auto|discriminate].
  - (* Reduce *) eapply run_bind; [apply SUBV; simpl; eauto|]. intros v h1 E1 X1 EO1 V1.
    eapply run_bind; [apply SUBV; simpl; eauto|]. intros w h2 E2 X2 EO2 V2.
    eapply run_mono; [apply run_reduce; eauto using hval_ok_ext|].
    + intros h3 E3 X3 EO3. apply SUBV; simpl; eauto using hext_trans.
    + intros h3 u _ V3. split; [auto|discriminate].
  - (* Tuple *) eapply run_bind; [eapply (run_operands (YTuple ops)); eauto; apply incl_refl|].
    intros vs h1 E1 X1 EO1 V1. apply run_lift'. intros rs Hrs. apply run_ret; auto. split; [|discriminate].
    simpl. exact (has_ok _ _ _ V1 Hrs).
  - (* Untuple *) eapply run_bind; [apply SUBV; simpl; eauto|]. intros v h1 E1 X1 EO1 V1.
    destruct v as [r|l]; [exact Logic.I|]. apply run_lift'. intros r Hr. apply run_ret; auto. split; [|discriminate].
    simpl in *. destruct (nth_error l at_) as [r'|] eqn:En; [|discriminate]. injection Hr as <-.
    apply nth_error_In in En. rewrite Forall_forall in V1. auto.
  - (* Einsum *) eapply run_bind; [eapply (run_operands (YEinsum s ops)); eauto; apply incl_refl|].
    intros vs h1 E1 X1 EO1 V1. apply run_lift'. intros rs Hrs. eapply run_bind; [apply run_reads; auto|].
    intros l h2 E2 X2 EO2 ->. lift_ha. apply run_share; auto; [exact (has_ok _ _ _ V1 Hrs)|]. apply hext_length; auto.
  - (* Ext *) eapply run_bind; [eapply (run_operands (YExt t f ops)); eauto; apply incl_refl|].
    intros vs h1 E1 X1 EO1 V1. apply run_lift'. intros rs Hrs. eapply run_bind; [apply run_reads; auto|].
    intros l h2 E2 X2 EO2 ->. lift_ha. apply run_share; auto; [exact (has_ok _ _ _ V1 Hrs)|]. apply hext_length; auto.
Qed.

End Safe.
