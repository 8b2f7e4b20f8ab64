(** The machine of Machine.v computes what [yeval] says, keeps every buffer that
    existed before, and restores the environment. *)
From Verif Require Import Base Scalar Tensor Types Sym Phi Den NdOps Term PhiTerm NdFacts DenWf Yarr YTerm YWf Machine.

Section Sim.
Context {FO : FloatOps} {EX : Externs} {PO : PadOps}.
(** [str]: the machine may not fail where [yeval] does not. *)
Variable str : bool.

Definition ref_ok (h : heap) (r : href) : Prop := rloc r < length h.
Definition hval_ok (h : heap) (v : hval) : Prop :=
  match v with HA r => ref_ok h r | HT l => Forall (ref_ok h) l end.
Definition env_ok (h : heap) (E : henv) : Prop := forall s v, E s = Some v -> hval_ok h v.
Definition hext (h h' : heap) : Prop := exists t, h' = h ++ t.
Definition abs (h : heap) (v : hval) : yval :=
  match v with HA r => YA (rd h r) | HT l => YT (map (rd h) l) end.
Definition absE (h : heap) (E : henv) : yenv := fun s => option_map (abs h) (E s).

Lemma hext_refl h : hext h h.
Proof. exists []. rewrite app_nil_r. reflexivity. Qed.
Lemma hext_trans a b c : hext a b -> hext b c -> hext a c.
Proof. intros [t ->] [u ->]. exists (t ++ u). rewrite app_assoc. reflexivity. Qed.
Lemma hext_length h h' : hext h h' -> length h <= length h'.
Proof. intros [t ->]. rewrite app_length. lia. Qed.
Lemma ref_ok_ext h h' r : hext h h' -> ref_ok h r -> ref_ok h' r.
Proof. intros X. apply hext_length in X. unfold ref_ok. lia. Qed.
Lemma rd_ext h h' r : hext h h' -> ref_ok h r -> rd h' r = rd h r.
Proof. intros [t ->] H. unfold rd. rewrite app_nth1 by exact H. reflexivity. Qed.
Lemma hval_ok_ext h h' v : hext h h' -> hval_ok h v -> hval_ok h' v.
Proof.
  intros X. destruct v; simpl; [apply ref_ok_ext; auto|]. apply Forall_impl. intros r. apply ref_ok_ext; auto.
Qed.
Lemma abs_ext h h' v : hext h h' -> hval_ok h v -> abs h' v = abs h v.
Proof.
  intros X. destruct v; simpl; intros H; [rewrite (rd_ext _ _ _ X H); auto|]. f_equal. apply map_ext_in.
  intros r Hr. rewrite Forall_forall in H. apply rd_ext; auto.
Qed.
Lemma env_ok_ext h h' E : hext h h' -> env_ok h E -> env_ok h' E.
Proof. intros X H s v Hv. eapply hval_ok_ext; eauto. Qed.

Definition good (h : heap) (v : hval) (b : yval) : Prop := hval_ok h v /\ abs h v = b.
Lemma good_ext h h' v b : hext h h' -> good h v b -> good h' v b.
Proof. intros X [H1 H2]. split; [eapply hval_ok_ext; eauto|]. rewrite (abs_ext _ _ _ X H1). auto. Qed.
Definition rgood (h : heap) (r : href) (a : arr) : Prop := ref_ok h r /\ rd h r = a.
Lemma rgood_ext h h' r b : hext h h' -> rgood h r b -> rgood h' r b.
Proof. intros X [H1 H2]. split; [eapply ref_ok_ext; eauto|]. rewrite (rd_ext _ _ _ X H1). auto. Qed.

Definition agree (D : list sym) (E' E : henv) : Prop := forall s, ~ In s D -> E' s = E s.

Definition sim {A B} (D : list sym) (h : heap) (E : henv) (m : M A) (r : res B)
  (P : heap -> henv -> A -> B -> Prop) : Prop :=
  match m (h, E), r with
  | Ok (a, (h', E')), Ok b => hext h h' /\ env_ok h' E' /\ agree D E' E /\ P h' E' a b
  | Ok _, Err _ => False
  | Err _, Ok _ => str = false
  | Err _, Err _ => True
  end.

Definition req {A} (r1 r2 : res A) : Prop := forall v, r1 = Ok v <-> r2 = Ok v.
Lemma req_refl {A} (r : res A) : req r r.
Proof. intros v. reflexivity. Qed.
Lemma req_sym {A} (r1 r2 : res A) : req r1 r2 -> req r2 r1.
Proof. intros H v. symmetry. apply H. Qed.
Lemma req_trans {A} (r1 r2 r3 : res A) : req r1 r2 -> req r2 r3 -> req r1 r3.
Proof. intros H G v. rewrite (H v). apply G. Qed.
Lemma req_bind {A B} (r1 r2 : res A) (k1 k2 : A -> res B) :
  req r1 r2 -> (forall a, req (k1 a) (k2 a)) -> req (let* a := r1 in k1 a) (let* a := r2 in k2 a).
Proof.
  intros H K v. split; intros G; apply bind_ok in G as (a & Ha & G).
  - apply H in Ha. rewrite Ha. simpl. apply K; auto.
  - apply H in Ha. rewrite Ha. simpl. apply K; auto.
Qed.
Lemma req_swap {A B C} (r1 : res A) (r2 : res B) (k : A -> B -> res C) :
  req (let* a := r1 in let* b := r2 in k a b) (let* b := r2 in let* a := r1 in k a b).
Proof. intros v. destruct r1, r2; simpl; try reflexivity; split; discriminate. Qed.

Lemma sim_req {A B} D h E (m : M A) (r r' : res B) P : req r r' -> sim D h E m r P -> sim D h E m r' P.
Proof.
  intros Q H. unfold sim in *. destruct (m (h, E)) as [[a [h' E']]|em]; destruct r as [b|e], r' as [b'|e']; auto.
  - assert (Ok b' = Ok b) as G by (apply Q; auto). injection G as ->. auto.
  - assert (Err e' = Ok b) as G by (apply Q; auto). discriminate.
  - tauto.
  - assert (Err e = Ok b') as G by (apply Q; auto). discriminate.
Qed.

Lemma agree_trans D a b c : agree D a b -> agree D b c -> agree D a c.
Proof. intros H1 H2 s Hs. rewrite H1, H2; auto. Qed.

Lemma sim_bind {A B A' B'} D h E (m : M A) (r : res B) (k : A -> M A') (k' : B -> res B') P Q :
  sim D h E m r P ->
  (forall a b h1 E1, hext h h1 -> env_ok h1 E1 -> agree D E1 E -> P h1 E1 a b -> sim D h1 E1 (k a) (k' b) Q) ->
  sim D h E (mbind m k) (let* b := r in k' b) Q.
Proof.
  intros H K. unfold sim in *. unfold mbind. destruct (m (h, E)) as [[a [h1 E1]]|] eqn:Em; simpl.
  - destruct r as [b|e]; [|contradiction]. destruct H as (X & EO & AG & HP). simpl. specialize (K a b h1 E1 X EO AG HP).
    destruct (k a (h1, E1)) as [[a' [h2 E2]]|]; destruct (k' b); auto. destruct K as (X2 & EO2 & AG2 & HQ).
    split; [eapply hext_trans; eauto|]. split; auto. split; auto. eapply agree_trans; eauto.
  - destruct r as [b|]; simpl; [|auto]. destruct (k' b); auto.
Qed.

(** A step with no counterpart in the reference. *)
Lemma sim_step {A A' B'} D h E (m : M A) (k : A -> M A') (r : res B') Q a h1 E1 :
  m (h, E) = Ok (a, (h1, E1)) -> hext h h1 -> agree D E1 E ->
  sim D h1 E1 (k a) r Q -> sim D h E (mbind m k) r Q.
Proof.
  intros Hm X AG H. unfold sim in *. unfold mbind. rewrite Hm. simpl.
  destruct (k a (h1, E1)) as [[a' [h2 E2]]|]; destruct r; auto. destruct H as (X2 & EO2 & AG2 & HQ).
  split; [eapply hext_trans; eauto|]. split; auto. split; auto. eapply agree_trans; eauto.
Qed.

Lemma sim_ret {A B} D h E (a : A) (b : B) (P : heap -> henv -> A -> B -> Prop) : env_ok h E -> P h E a b -> sim D h E (mret a) (Ok b) P.
Proof. intros EO H. simpl. split; [apply hext_refl|]. split; auto. split; auto. intros s _. reflexivity. Qed.

Lemma sim_mono {A B} D D' h E (m : M A) (r : res B) (P Q : heap -> henv -> A -> B -> Prop) :
  incl D D' -> sim D h E m r P ->
  (forall a b h1 E1, hext h h1 -> env_ok h1 E1 -> agree D E1 E -> P h1 E1 a b -> Q h1 E1 a b) -> sim D' h E m r Q.
Proof.
  intros I H K. unfold sim in *. destruct (m (h, E)) as [[a [h1 E1]]|]; destruct r; auto.
  destruct H as (X & EO & AG & HP). split; auto. split; auto. split; auto. intros s Hs. apply AG. auto.
Qed.

Lemma sim_restore {A B} D h E (m : M A) (r : res B) P :
  sim D h E m r (fun h' E' a b => (forall s, In s D -> E' s = E s) /\ P h' E' a b) -> sim [] h E m r P.
Proof.
  intros H. unfold sim in *. destruct (m (h, E)) as [[a [h1 E1]]|]; destruct r; auto.
  destruct H as (X & EO & AG & HD & HP). split; auto. split; auto. split; auto. intros s _.
  destruct (in_dec sym_eq_dec s D); auto.
Qed.

Lemma sim_pure {A A' B'} D h E (r : res A) (k : A -> M A') (k' : A -> res B') Q :
  (forall a, r = Ok a -> sim D h E (k a) (k' a) Q) ->
  sim D h E (mbind (mlift r) k) (let* a := r in k' a) Q.
Proof.
  intros H. destruct r as [a|]; [|exact I]. specialize (H a eq_refl). unfold sim, mbind, mlift in *. simpl. exact H.
Qed.

Lemma sim_read {A' B'} D h E r (k : arr -> M A') (r' : res B') Q :
  sim D h E (k (rd h r)) r' Q -> sim D h E (mbind (mread r) k) r' Q.
Proof.
  intros H. eapply sim_step; [reflexivity|apply hext_refl| |exact H]. intros s _. reflexivity.
Qed.

Lemma sim_ha {A' B'} D h E v b (k : href -> M A') (k' : arr -> res B') Q :
  good h v b -> (forall r, v = HA r -> ref_ok h r -> b = YA (rd h r) -> sim D h E (k r) (k' (rd h r)) Q) ->
  sim D h E (mbind (mlift (ha v)) k) (let* a := ya b in k' a) Q.
Proof.
  intros [H1 H2] K. destruct v as [r|l]; simpl in H2; subst b; [|exact I].
  specialize (K r eq_refl H1 eq_refl). unfold sim, mbind, mlift in *. simpl. exact K.
Qed.

Lemma hext_app h t : hext h (h ++ t).
Proof. exists t. reflexivity. Qed.

Lemma new_good h a : good (h ++ [a]) (HA (whole (length h))) (YA a).
Proof.
  split; simpl.
  - unfold ref_ok. simpl. rewrite app_length. simpl. lia.
  - unfold rd. simpl. rewrite app_nth2, Nat.sub_diag by lia. reflexivity.
Qed.

Definition post (n : nat) (e : yarr) (h' : heap) (E' : henv) (v : hval) (b : yval) : Prop :=
  good h' v b /\ (is_temporary e = true -> exists L, v = HA (whole L) /\ n <= L).

Lemma sim_new D h E e n a : env_ok h E -> n <= length h -> sim D h E (mnew a) (Ok (YA a)) (post n e).
Proof.
  intros EO Hn. unfold mnew. eapply sim_step; [reflexivity|apply hext_app|intros s _; reflexivity|].
  apply sim_ret; [eapply env_ok_ext; eauto; apply hext_app|]. split; [apply new_good|]. intros _. eauto.
Qed.

Lemma sim_view D h E (f : arr -> res arr) r : env_ok h E -> ref_ok h r ->
  sim D h E (mview f r) (f (rd h r)) (fun h' _ r' b => rgood h' r' b).
Proof.
  intros EO R. unfold mview. apply sim_read. destruct (f (rd h r)) as [b|] eqn:Ef; [|exact I].
  eapply sim_step; [unfold mlift; simpl; reflexivity|apply hext_refl|intros s _; reflexivity|].
  apply sim_ret; auto. split; [exact R|]. unfold rd in *. simpl. rewrite Ef. reflexivity.
Qed.

Section Share.
Variable shares : heap -> list href -> arr -> option href.
(** A view an operand may be returned as. *)
Definition shares_ok : Prop := forall h ops b r, shares h ops b = Some r ->
  rd h r = b /\ exists r0, In r0 ops /\ rloc r0 = rloc r.
Hypothesis SH : shares_ok.

Lemma sim_share D h E e n ops b : env_ok h E -> is_temporary e = false -> n <= length h ->
  Forall (ref_ok h) ops -> sim D h E (mshare shares ops b) (Ok (YA b)) (post n e).
Proof.
  intros EO T Hn R. unfold sim, mshare. simpl. destruct (shares h ops b) as [r|] eqn:Es.
  - apply SH in Es as (H1 & r0 & H2 & H3). split; [apply hext_refl|]. split; auto. split; [intros s _; reflexivity|].
    rewrite Forall_forall in R. specialize (R r0 H2). unfold ref_ok in R. rewrite H3 in R.
    split; [|congruence]. split; [exact R|]. simpl. rewrite H1. reflexivity.
  - exact (sim_new D h E e n b EO Hn).
Qed.

End Share.

(** Lists of operands. *)
Lemma sim_mapM {A B C} D h E (f : A -> M B) (g : A -> res C) (P : heap -> B -> C -> Prop) l :
  (forall h h' b c, hext h h' -> P h b c -> P h' b c) ->
  env_ok h E ->
  (forall x h1 E1, In x l -> hext h h1 -> env_ok h1 E1 -> agree D E1 E ->
     sim D h1 E1 (f x) (g x) (fun h' _ b c => P h' b c)) ->
  sim D h E (mmapM f l) (mapM g l) (fun h' _ bs cs => Forall2 (P h') bs cs).
Proof.
  intros MO EO H. revert h E EO H. induction l as [|x l IH]; intros h E EO H; simpl.
  - apply sim_ret; auto.
  - eapply sim_bind; [apply H; simpl; auto; [apply hext_refl|intros s _; reflexivity]|].
    intros b c h1 E1 X1 EO1 A1 P1. eapply sim_bind.
    { apply IH; auto. intros y h2 E2 Hy X2 EO2 A2. apply H; simpl; auto; [eapply hext_trans; eauto|eapply agree_trans; eauto]. }
    intros bs cs h2 E2 X2 EO2 A2 F. apply sim_ret; auto. constructor; eauto.
Qed.

Lemma F2_impl {A B} (P Q : A -> B -> Prop) l l' : (forall a b, P a b -> Q a b) -> Forall2 P l l' -> Forall2 Q l l'.
Proof. intros H F. induction F; constructor; auto. Qed.

(** The same, over lists already related. *)
Lemma sim_mapM2 {A A' B C} D h E (f : A -> M B) (g : A' -> res C) (R : heap -> A -> A' -> Prop)
  (P : heap -> B -> C -> Prop) l l' :
  (forall h h' b c, hext h h' -> P h b c -> P h' b c) ->
  (forall h h' b c, hext h h' -> R h b c -> R h' b c) ->
  env_ok h E -> Forall2 (R h) l l' ->
  (forall x y h1 E1, R h1 x y -> hext h h1 -> env_ok h1 E1 -> agree D E1 E ->
     sim D h1 E1 (f x) (g y) (fun h' _ b c => P h' b c)) ->
  sim D h E (mmapM f l) (mapM g l') (fun h' _ bs cs => Forall2 (P h') bs cs).
Proof.
  intros MO MR EO HR H. revert l' h E EO HR H. induction l as [|x l IH]; intros l' h E EO HR H; inversion HR; subst; simpl.
  - apply sim_ret; auto.
  - eapply sim_bind; [apply H; simpl; auto; [apply hext_refl|intros s _; reflexivity]|].
    intros b c h1 E1 X1 EO1 A1 P1. eapply sim_bind.
    { apply IH; auto.
      - eapply F2_impl; [|eassumption]. intros a' b' Hab. eapply MR; eauto.
      - intros u w h2 E2 Hy X2 EO2 A2. apply H; simpl; auto; [eapply hext_trans; eauto|eapply agree_trans; eauto]. }
    intros bs cs h2 E2 X2 EO2 A2 F. apply sim_ret; auto. constructor; eauto.
Qed.

Definition orel {A B} (P : A -> B -> Prop) (o : option A) (o' : option B) : Prop :=
  match o, o' with Some a, Some b => P a b | None, None => True | _, _ => False end.

Lemma sim_omap {A A' B C} D h E (f : A -> M B) (g : A' -> res C) (P : heap -> B -> C -> Prop) o o' :
  env_ok h E ->
  orel (fun x y => sim D h E (f x) (g y) (fun h' _ b c => P h' b c)) o o' ->
  sim D h E (momap f o) (omapM g o') (fun h' _ b c => orel (P h') b c).
Proof.
  intros EO H. destruct o, o'; simpl in H; try contradiction; simpl.
  - eapply sim_bind; [exact H|]. intros b c h1 E1 X1 EO1 A1 P1. apply sim_ret; auto.
  - apply sim_ret; simpl; auto.
Qed.

Lemma sim_has {A' B'} D h E vs bs (k : list href -> M A') (k' : list arr -> res B') Q :
  Forall2 (good h) vs bs ->
  (forall rs, Forall (ref_ok h) rs -> sim D h E (k rs) (k' (map (rd h) rs)) Q) ->
  sim D h E (mbind (mlift (mapM ha vs)) k) (let* l := mapM ya bs in k' l) Q.
Proof.
  intros H K.
  assert (G : match mapM ha vs, mapM ya bs with
              | Ok rs, Ok l => l = map (rd h) rs /\ Forall (ref_ok h) rs
              | Err _, Err _ => True | _, _ => False end).
  { clear K. induction H as [|v b vs bs [H1 H2] _ IH]; simpl; auto.
    destruct v as [r|l]; simpl in H2; subst b; simpl; auto.
    destruct (mapM ha vs), (mapM ya bs); simpl; auto. destruct IH as [-> IH]. auto. }
  destruct (mapM ha vs) as [rs|], (mapM ya bs) as [l|]; try contradiction; [|exact I].
  destruct G as [-> G]. specialize (K rs G). unfold sim, mbind, mlift in *. simpl. exact K.
Qed.

Lemma mreads h E rs : mmapM mread rs (h, E) = Ok (map (rd h) rs, (h, E)).
Proof. induction rs as [|r rs IH]; simpl; auto. unfold mbind, mread in *. simpl. rewrite IH. reflexivity. Qed.

Lemma sim_reads {A' B'} D h E rs (k : list arr -> M A') (r' : res B') Q :
  sim D h E (k (map (rd h) rs)) r' Q -> sim D h E (mbind (mmapM mread rs) k) r' Q.
Proof.
  intros H. eapply sim_step; [apply mreads|apply hext_refl|intros s _; reflexivity|exact H].
Qed.
End Sim.
