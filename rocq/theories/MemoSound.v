(** The table of translated terms (phi_to_yarr.py:36, 297-304) does not change the
    translation of a program all of whose visited terms bind different symbols,
    no fold of which is a candidate for a sum of products. *)
From Verif Require Import Base Scalar Tensor Types Sym Phi Den Term PhiTerm DenFree SpecPhi Lining Typing
  Sizes ClipShift NdOps NdFacts Yarr Axial AxialFacts AxialOps Codegen IndexOps CodegenGet CodegenCtx CodegenCases Subst
  CodegenAxes YOps CodegenSafe CodegenRed CodegenLocal Compile CodegenMemo.

Section MemoSound.
Context {FO : FloatOps} {EX : Externs}.
Variable fl : flags.
Variable orc : oracle.
Variable p : phi.
Hypothesis TD : tidy fl orc p.
Notation vis := (visits fl orc p).
Notation kids := (kids fl orc).
Notation binds_here := (binds_here fl orc).
Notation cok := (cok fl orc p).
Notation go := (go fl orc).
Notation mgo := (mgo fl orc).

Definition has (m : memo) (e : phi) : Prop := recall m e <> None.

Lemma recall_cons e a m x : recall ((e, a) :: m) x = if phi_eqb x e then Some a else recall m x.
Proof. reflexivity. Qed.

(** What is in the table: translations in some context that agrees with the
    present one, unless a variable is out of scope; then the term that binds it
    is in the table, or is [pend]ing. *)
Definition entry_ok (pend : list phi) (S : sym -> Prop) (idxs : idx_sizes) (vax : var_axes) (m : memo) (e : phi) (a : axial) : Prop :=
  vis e /\
  (forall s, free_in s e -> S s \/ exists n, vis n /\ In s (binds_here n) /\ (In n pend \/ has m n)) /\
  ((forall s, free_in s e -> S s) -> exists S0 i0 v0 F, cok S0 i0 v0 e /\ same F i0 v0 idxs vax /\
     (forall s, F s -> S0 s) /\ (forall s, F s -> S s) /\ (forall s, free_in s e -> F s) /\ go (weight e) i0 v0 e = Ok a).
Definition inv (pend : list phi) S idxs vax (m : memo) : Prop :=
  forall e a, recall m e = Some a -> entry_ok pend S idxs vax m e a.

Lemma same_sub (F G : sym -> Prop) i0 v0 i1 v1 i2 v2 : same F i0 v0 i1 v1 -> (forall s, G s -> F s) ->
  (forall i, G (SX i) -> assoc i i1 = assoc i i2) -> (forall x, G (SV x) -> axes_of v1 x = axes_of v2 x) ->
  closed G v2 -> same G i0 v0 i2 v2.
Proof.
  intros [A B C] H1 H2 H3 H4. split.
  - intros i Hi. rewrite A, H2; auto.
  - intros x Hx. rewrite B, H3; auto.
  - intros y i Hy Hi. apply (H4 y i Hy). rewrite <- H3, <- B; auto.
Qed.

(** Entering and leaving a scope *)
Lemma inv_enter S idxs vax n sc idxs' vax' m : cok S idxs vax n -> (forall s, In s sc -> In s (binds_here n)) -> recall m n = None ->
  (forall i, ~ In (SX i) sc -> assoc i idxs' = assoc i idxs) -> (forall x, ~ In (SV x) sc -> axes_of vax' x = axes_of vax x) ->
  inv [] S idxs vax m -> inv [] (more S sc) idxs' vax' m.
Proof.
  intros C BH N HI HV H e a Ha. destruct (H e a Ha) as (V & O & W). split; auto.
  assert (NS : forall s, In s sc -> ~ S s) by (intros s Hs; eapply cok_new; eauto).
  split.
  - intros s Hs. destruct (O s Hs) as [Q|Q]; [left; left; auto|right; auto].
  - intros FS. destruct W as (S0 & i0 & v0 & F & W1 & W2 & W3 & W4 & W5 & W6).
    { intros s Hs. destruct (FS s Hs) as [Q|Q]; auto. destruct (O s Hs) as [Q'|(n' & V' & B' & [[]|Q'])]; auto.
      assert (n' = n) by (eapply (t_once _ _ _ TD); eauto; apply (c_vis _ _ _ _ _ _ _ C)). subst. unfold has in Q'. congruence. }
    exists S0, i0, v0, F. split; auto. split; [|split; [|split; [|split]]]; auto.
    + eapply same_sub; [exact W2|auto|..].
      * intros i Hi. symmetry. apply HI. intros K. apply (NS _ K). auto.
      * intros x Hx. symmetry. apply HV. intros K. apply (NS _ K). auto.
      * intros y i Hy. rewrite HV by (intros K; apply (NS _ K); auto). rewrite <- (s_var _ _ _ _ _ W2) by auto. apply (s_closed _ _ _ _ _ W2 y i Hy).
    + intros s Hs. left. auto.
Qed.
Lemma inv_leave S idxs vax n sc idxs' vax' m : cok S idxs vax n -> (forall s, In s sc -> In s (binds_here n)) ->
  (forall i, ~ In (SX i) sc -> assoc i idxs' = assoc i idxs) -> (forall x, ~ In (SV x) sc -> axes_of vax' x = axes_of vax x) ->
  inv [] (more S sc) idxs' vax' m -> inv [n] S idxs vax m.
Proof.
  intros C BH HI HV H e a Ha. destruct (H e a Ha) as (V & O & W). split; auto.
  assert (NS : forall s, In s sc -> ~ S s) by (intros s Hs; eapply cok_new; eauto).
  split.
  - intros s Hs. destruct (O s Hs) as [[Q|Q]|(n' & V' & B' & [[]|Q'])]; auto.
    + right. exists n. split; [apply (c_vis _ _ _ _ _ _ _ C)|]. split; auto. left. simpl. auto.
    + right. exists n'. auto.
  - intros FS. destruct W as (S0 & i0 & v0 & F & W1 & W2 & W3 & W4 & W5 & W6); [intros s Hs; left; auto|].
    exists S0, i0, v0, (fun s => F s /\ S s). split; auto. split; [|split; [|split; [|split]]]; try tauto; auto.
    + eapply same_sub; [exact W2|tauto|..].
      * intros i [_ Hi]. apply HI. intros K. apply (NS _ K). auto.
      * intros x [_ Hx]. apply HV. intros K. apply (NS _ K). auto.
      * intros y i [Hy Sy] Hi. assert (Q : axes_of vax' y = axes_of vax y) by (apply HV; intros K; apply (NS _ K); auto). split.
        -- apply (s_closed _ _ _ _ _ W2 y i Hy). rewrite (s_var _ _ _ _ _ W2), Q by auto. auto.
        -- eapply c_axes; eauto. eapply axes_of_In; eauto.
    + intros s [A _]. auto.
Qed.

Lemma scope_closed S idxs vax n : cok S idxs vax n -> closed S vax.
Proof. intros C y i _ Hi. eapply c_axes; eauto. eapply axes_of_In; eauto. Qed.

Lemma inv_add S idxs vax n fuel a m : cok S idxs vax n -> weight n <= fuel -> go fuel idxs vax n = Ok a ->
  inv [n] S idxs vax m -> inv [] S idxs vax ((n, a) :: m).
Proof.
  intros C W G H e b Hb. rewrite recall_cons in Hb.
  assert (HS : forall x, has m x \/ x = n -> has ((n, a) :: m) x).
  { intros x Hx. unfold has. rewrite recall_cons. destruct (phi_eqb x n) eqn:Q; [discriminate|]. destruct Hx as [Hx|Hx]; auto.
    apply phi_eqb_eq in Hx. congruence. }
  destruct (phi_eqb e n) eqn:Q.
  - apply phi_eqb_eq in Q. subst e. injection Hb as <-. split; [apply (c_vis _ _ _ _ _ _ _ C)|].
    split; [intros s Hs; left; eapply c_free; eauto|]. intros _. exists S, idxs, vax, S. split; auto.
    assert (SM : same S idxs vax idxs vax) by (split; auto; eapply scope_closed; eauto).
    split; auto. split; auto. split; auto. split; [apply (c_free _ _ _ _ _ _ _ C)|].
    rewrite <- G. eapply go_local; eauto. apply (c_free _ _ _ _ _ _ _ C).
  - destruct (H e b Hb) as (V & O & Z). split; auto. split; auto. intros s Hs.
    destruct (O s Hs) as [K|(n' & V' & B' & K)]; auto. right. exists n'. split; auto. split; auto. right. apply HS.
    destruct K as [[<-|[]]|K]; auto.
Qed.

Lemma inv_recall S idxs vax n fuel a m : cok S idxs vax n -> weight n <= fuel -> inv [] S idxs vax m -> recall m n = Some a ->
  go fuel idxs vax n = Ok a.
Proof.
  intros C W H Hn. destruct (H n a Hn) as (V & O & Z).
  destruct Z as (S0 & i0 & v0 & F & W1 & W2 & W3 & W4 & W5 & W6); [apply (c_free _ _ _ _ _ _ _ C)|].
  rewrite <- W6. symmetry. eapply (go_local fl orc p TD (weight n) n fuel F S0 S); eauto.
Qed.

(** * Computations with and without the table *)
Section Node.
Variable n : phi.
Variable S : sym -> Prop.
Variables (idxs : idx_sizes) (vax : var_axes).

Definition sim {A} (pend : list phi) (c : tab A) (r : res A) : Prop := forall m, inv [] S idxs vax m -> recall m n = None ->
  match c m with
  | Ok (a, m') => r = Ok a /\ inv pend S idxs vax m' /\ forall x, has m' x -> has m x \/ weight x < weight n
  | Err x => r = Err x
  end.

Lemma still (m m' : memo) : recall m n = None -> (forall x, has m' x -> has m x \/ weight x < weight n) -> recall m' n = None.
Proof.
  intros H K. destruct (recall m' n) eqn:Q; auto. destruct (K n) as [A|A]; [unfold has; congruence| |lia]. unfold has in A. congruence.
Qed.
Lemma inv_more pend m : inv [] S idxs vax m -> inv pend S idxs vax m.
Proof.
  intros H e a Ha. destruct (H e a Ha) as (V & O & Z). split; auto. split; auto. intros s Hs.
  destruct (O s Hs) as [K|(n' & V' & B' & [[]|K])]; auto. right. exists n'. auto.
Qed.

Lemma sim_ret {A} (r : res A) : sim [] (tret r) r.
Proof. intros m H N. unfold tret. destruct r; cbn [bind]; auto. Qed.
Lemma sim_more {A} pend (c : tab A) r : sim [] c r -> sim pend c r.
Proof. intros H m I N. specialize (H m I N). destruct (c m) as [[a m']|]; auto. destruct H as (A1 & A2 & A3). auto using inv_more. Qed.
Lemma sim_bind {A B} pend (c : tab A) r (k : A -> tab B) k' : sim [] c r -> (forall a, r = Ok a -> sim pend (k a) (k' a)) ->
  sim pend (tbind c k) (bind r k').
Proof.
  intros H K m I N. unfold tbind. specialize (H m I N). destruct (c m) as [[a m']|x]; cbn [bind fst snd]; [|subst; auto].
  destruct H as (-> & I' & M'). cbn [bind]. specialize (K a eq_refl m' I' (still _ _ N M')). destruct (k a m') as [[b m2]|x]; auto.
  destruct K as (K1 & K2 & K3). split; auto. split; auto. intros x Hx. destruct (K3 x Hx) as [Q|Q]; auto.
Qed.
Lemma sim_pure {A B} pend (r : res A) (k : A -> tab B) k' : (forall a, r = Ok a -> sim pend (k a) (k' a)) ->
  sim pend (tbind (tret r) k) (bind r k').
Proof. intros K. apply sim_bind; auto. apply sim_ret. Qed.
Lemma sim_bind0 {A B} pend (c : tab A) a (k : A -> tab B) r : (forall m, c m = Ok (a, m)) -> sim pend (k a) r -> sim pend (tbind c k) r.
Proof. intros Q H m I N. unfold tbind. rewrite Q. exact (H m I N). Qed.
Lemma sim_mapM {A B} (f : A -> tab B) g l : (forall x, In x l -> sim [] (f x) (g x)) -> sim [] (tmapM f l) (mapM g l).
Proof.
  induction l as [|x l IH]; intros H; cbn [tmapM mapM]; [apply sim_ret|].
  apply sim_bind; [apply H; left; auto|]. intros y _. apply sim_bind; [apply IH; intros; apply H; right; auto|]. intros ys _. apply sim_ret.
Qed.
(** After the last call the table is left alone. *)
Definition inert {A} (c : tab A) (r : res A) : Prop := forall m, c m = let* a := r in Ok (a, m).
Lemma inert_ret {A} (r : res A) : inert (tret r) r.
Proof. intros m. reflexivity. Qed.
Lemma inert_pure {A B} (r : res A) (k : A -> tab B) k' : (forall a, inert (k a) (k' a)) -> inert (tbind (tret r) k) (bind r k').
Proof. intros H m. unfold tbind, tret. destruct r; cbn [bind fst snd]; auto. apply H. Qed.
Lemma sim_last {A B} pend (c : tab A) r (k : A -> tab B) k' : sim pend c r -> (forall a, inert (k a) (k' a)) ->
  sim pend (tbind c k) (bind r k').
Proof.
  intros H K m I N. unfold tbind. specialize (H m I N). destruct (c m) as [[a m']|x]; cbn [bind fst snd]; [|subst; auto].
  destruct H as (-> & I' & M'). cbn [bind]. rewrite K. destruct (k' a); cbn [bind]; auto.
Qed.
Lemma sim_forget {A} (c : tab A) r : sim [n] c r -> sim [] (forgetting c) r.
Proof.
  intros H m I N. unfold forgetting. specialize (H m I N). destruct (c m) as [[a m']|x]; cbn [bind fst]; auto.
  destruct H as (-> & _). auto.
Qed.
End Node.

Definition sound (fuel : nat) : Prop := forall e S idxs vax m, cok S idxs vax e -> weight e <= fuel -> inv [] S idxs vax m ->
  match mgo fuel idxs vax e m with
  | Ok (a, m') => go fuel idxs vax e = Ok a /\ inv [] S idxs vax m' /\ forall x, has m' x -> has m x \/ weight x <= weight e
  | Err x => go fuel idxs vax e = Err x
  end.

Lemma sim_kid fuel n S idxs vax c : sound fuel -> cok S idxs vax n -> weight n <= Datatypes.S fuel -> In ([], c) (kids n) ->
  sim n S idxs vax [] (mgo fuel idxs vax c) (go fuel idxs vax c).
Proof.
  intros SD C W Hk m I N. pose proof (kid_weight fl orc p TD _ _ _ (c_vis _ _ _ _ _ _ _ C) Hk) as KW.
  specialize (SD c S idxs vax m (cok_kid _ _ _ TD _ _ _ _ _ C Hk) ltac:(lia) I). destruct (mgo fuel idxs vax c m) as [[a m']|x]; auto.
  destruct SD as (A1 & A2 & A3). split; auto. split; auto. intros x Hx. destruct (A3 x Hx); auto. right. lia.
Qed.
Lemma sim_enter fuel n S idxs vax sc c idxs' vax' : sound fuel -> cok S idxs vax n -> weight n <= Datatypes.S fuel -> In (sc, c) (kids n) ->
  cok (more S sc) idxs' vax' c ->
  (forall i, ~ In (SX i) sc -> assoc i idxs' = assoc i idxs) -> (forall x, ~ In (SV x) sc -> axes_of vax' x = axes_of vax x) ->
  sim n S idxs vax [n] (mgo fuel idxs' vax' c) (go fuel idxs' vax' c).
Proof.
  intros SD C W Hk C' HI HV m I N. pose proof (kid_weight fl orc p TD _ _ _ (c_vis _ _ _ _ _ _ _ C) Hk) as KW.
  assert (BH : forall s, In s sc -> In s (binds_here n)).
  { intros s Hs. unfold CodegenLocal.binds_here. apply in_flat_map. exists (sc, c). auto. }
  specialize (SD c (more S sc) idxs' vax' m C' ltac:(lia) (inv_enter _ _ _ _ _ _ _ _ C BH N HI HV I)).
  destruct (mgo fuel idxs' vax' c m) as [[a m']|x]; auto.
  destruct SD as (A1 & A2 & A3). split; auto. split; [eapply inv_leave; eauto|]. intros x Hx. destruct (A3 x Hx); auto. right. lia.
Qed.

Lemma sim_get n S idxs vax rec1 rec2 t i : n = PGet t i -> (forall c, In ([], c) (kids n) -> sim n S idxs vax [] (rec1 c) (rec2 c)) ->
  sim n S idxs vax [] (mtransform_get fl orc rec1 idxs t i) (transform_get fl orc rec2 idxs t i).
Proof.
  intros -> R. unfold mtransform_get, transform_get. apply sim_bind; [apply R; left; auto|]. intros tg _. apply sim_pure. intros rk _. cbv zeta.
  match goal with |- sim _ _ _ _ _ (if _ then match _ with Some _ => _ | None => ?o end else ?o) (if _ then match _ with Some _ => _ | None => ?o' end else _) =>
    assert (OTH : sim (PGet t i) S idxs vax [] o o') end.
  { apply sim_bind; [apply R; simpl; auto|]. intros it _. destruct (_ && _); [apply sim_pure; intros q _|]; apply sim_ret. }
  destruct (use_slice_pads fl); auto.
  destruct (match_index_clipped_shift i) as [[ix [[sh lo] hi]]|] eqn:M; auto. destruct (smem _ _); auto. destruct (_ && _); [apply sim_ret|].
  assert (P : forall o dflt, In o [sh; lo; hi] -> sim (PGet t i) S idxs vax []
    match o with Some e => tbind (rec1 e) (fun a => tret (normal a)) | None => tret (Ok dflt) end
    match o with Some e => let* a := rec2 e in normal a | None => Ok dflt end).
  { intros [q|] dflt Ho; [|apply sim_ret]. apply sim_bind; [|intros; apply sim_ret]. apply R. simpl. right. right. right. apply in_map.
    unfold shift_parts. rewrite M. simpl in Ho. rewrite !in_app_iff. destruct Ho as [->|[->|[->|[]]]]; simpl; auto. }
  apply sim_pure. intros size _. apply sim_bind; [apply R; simpl; auto|]. intros d _. apply sim_pure. intros d' _. apply sim_pure. intros ps _.
  apply sim_bind; [apply P; simpl; auto|]. intros sh' _. apply sim_bind; [apply P; simpl; auto|]. intros lo' _.
  apply sim_bind; [apply P; simpl; auto|]. intros hi' _. apply sim_pure. intros y _. apply sim_ret.
Qed.

Lemma all_sound fuel : sound fuel.
Proof.
  induction fuel as [|fuel IH]; intros e S idxs vax m C W I; [destruct e; simpl in W; lia|].
  cbn [CodegenMemo.mgo]. destruct (recall m e) as [a|] eqn:RC.
  { split; [eapply inv_recall; eauto|]. auto. }
  enough (SIM : sim e S idxs vax [e] (mgo_ fl orc (mgo fuel) idxs vax e) (go (Datatypes.S fuel) idxs vax e)).
  { specialize (SIM m I RC). destruct (mgo_ fl orc (mgo fuel) idxs vax e m) as [[a m']|x]; cbn [bind fst snd]; auto.
    destruct SIM as (A1 & A2 & A3). split; auto. split; [eapply inv_add; eauto|].
    intros x Hx. unfold has in Hx. rewrite recall_cons in Hx. destruct (phi_eqb x e) eqn:Q.
    - apply phi_eqb_eq in Q. subst. auto.
    - destruct (A3 x Hx); auto. right. lia. }
  clear m I RC.
  pose proof (c_vis _ _ _ _ _ _ _ C) as V.
  assert (K0 : forall c, In ([], c) (kids e) -> sim e S idxs vax [] (mgo fuel idxs vax c) (go fuel idxs vax c)).
  { intros c Hk. eapply sim_kid; eauto. }
  assert (K2 : forall sc c bs, In (sc, c) (kids e) -> (forall x ax, In (x, ax) bs -> In (SV x) sc) ->
     (forall x ax i, In (x, ax) bs -> In i ax -> more S sc (SX i)) ->
     sim e S idxs vax [e] (mgo fuel idxs (bs ++ vax) c) (go fuel idxs (bs ++ vax) c)).
  { intros sc c bs Hk B1 B2. eapply sim_enter; eauto.
    - eapply cok_bind; eauto.
    - intros x Hx. rewrite axes_of_app. destruct (mem x (map fst bs)) eqn:M; auto. exfalso. apply mem_In in M.
      apply in_map_iff in M as ([y ax] & <- & M). apply Hx. eauto. }
  assert (RE : forall c a, In ([], c) (kids e) -> go fuel idxs vax c = Ok a -> forall i, In i (ax_axes a) -> S (SX i)).
  { intros c a Hk Ha. eapply (go_reach fl orc p TD fuel c S idxs vax a S); auto.
    - eapply cok_kid; eauto.
    - intros s Hs. eapply c_free; [eapply cok_kid; eauto|auto].
    - eapply scope_closed; eauto. }
  assert (AL : forall l, (forall ax, In ax l -> forall i, In i ax -> S (SX i)) -> forall i, In i (alignment l) -> S (SX i)).
  { intros l K i Hi. apply alignment_In in Hi as (ax & Hax & Hi). eauto. }
  Ltac pure_ := repeat (first [apply sim_ret | apply sim_pure; intros ? ?]).
  Ltac kid_ K0 := apply sim_bind; [apply K0; simpl; auto|]; intros.
  destruct e; cbn [CodegenMemo.mgo_ Codegen.go]; cbn [bind].
  - apply sim_more, sim_ret.
  - apply sim_more. destruct s; pure_.
  - apply sim_bind; [apply K0; simpl; auto|]. intros b Hb.
    assert (B : forall i, In i (ax_axes b) -> S (SX i)) by (eapply RE; [left; reflexivity|eauto]).
    apply sim_last; [|intros; apply inert_ret].
    apply (K2 [SV x] e2 [(x, ax_axes b)]); [simpl; auto| |].
    + intros y ax [H|[]]. injection H as <- <-. simpl. auto.
    + intros y ax i [H|[]] Hi. injection H as <- <-. left. auto.
  - apply sim_more. apply K0; left; auto.
  - apply sim_more. kid_ K0. pure_.
  - apply sim_more. apply sim_get; auto.
  - apply sim_more. kid_ K0. kid_ K0. pure_.
  - apply sim_more. apply sim_pure. intros ty _. destruct ty; try apply sim_ret. apply sim_pure. intros q _. kid_ K0. pure_.
  - apply sim_more. apply sim_pure. intros ty _. destruct ty; try apply sim_ret. apply sim_pure. intros q _. apply sim_pure. intros q' _. kid_ K0. pure_.
  - kid_ K0. apply sim_pure. intros s' _. apply sim_last; [|intros; apply inert_ret].
    apply (sim_enter fuel _ S idxs vax [SX i] e2); auto; [simpl; auto| |].
    + eapply cok_enter; [exact TD|eassumption|simpl; auto| | |].
      * intros j. simpl. intros [<-|K]; [right; simpl; auto|left; eapply c_keys; eauto].
      * intros j Hj. left. eapply c_axes; eauto.
      * intros j Hj. left. eapply c_vars; eauto.
    + intros j Hj. cbn [assoc]. destruct (Nat.eqb_spec j i) as [->|]; [exfalso; apply Hj; left; auto|].
      destruct (Nat.eqb_spec i j) as [->|]; [exfalso; apply Hj; left; auto|]. auto.
  - (* Fold *)
    assert (NE := t_ein _ _ _ TD _ _ _ _ _ V). rewrite (no_einsum_fold _ _ _ _ _ _ NE). cbn [bind].
    apply (sim_bind0 _ _ _ _ _ _ None).
    { intros m. unfold no_einsum in NE. destruct (use_einsum fl); auto. cbn [negb orb] in NE. unfold meinsum_fold, tbind, tret.
      destruct (lift (PFold c e1 acc e2 e3)) as [dd|]; [|discriminate]. cbn [bind fst snd]. rewrite NE. auto. }
    destruct (reduces fl orc c e1 acc e2 e3) as [[elem r]|] eqn:R.
    { apply sim_more. destruct (reduces_inv _ _ _ _ _ _ _ _ _ R) as (UR & TI & FI & M & CS). rewrite UR.
      apply sim_bind; [|intros [ra|] Hra; [apply sim_ret|]].
      2:{ exfalso. unfold match_reduction in Hra. rewrite TI in Hra. cbn [bind] in Hra. rewrite FI in Hra.
          replace (ty_eqb (TScalar KFloat) (TScalar KFloat)) with true in Hra by (symmetry; apply ty_eqb_eq; auto).
          cbn [negb orb is_nil] in Hra. rewrite M, CS in Hra. cbn [negb] in Hra. peel Hra. discriminate. }
      unfold mmatch_reduction, match_reduction. rewrite TI. apply sim_pure. intros ti Hti. injection Hti as <-.
      rewrite FI. replace (ty_eqb (TScalar KFloat) (TScalar KFloat)) with true by (symmetry; apply ty_eqb_eq; auto).
      cbn [negb orb is_nil]. rewrite M, CS. cbn [negb].
      destruct (t_red _ _ _ TD _ _ _ _ _ _ _ V R) as (N1 & N2 & N3).
      destruct (smem (SV acc) (fsyms elem)) eqn:SA.
      { destruct N3 as [N3|N3]; [|apply smem_In in SA; tauto]. rewrite N3. apply sim_pure. discriminate. }
      rewrite (name_fold _ _ _ TD _ _ _ _ _ _ _ _ _ _ C R SA).
      cbn [CodegenLocal.kids] in K0. rewrite R, SA in K0. fold (elems (name_of orc (PFold c e1 acc e2 e3)) c e1 elem).
      apply sim_pure. intros _ _. apply sim_pure. intros _ _. kid_ K0. apply sim_pure. intros q _. kid_ K0. pure_. }
    apply sim_bind.
    { unfold reduces in R. destruct (use_reductions fl); [|apply sim_ret]. unfold mmatch_reduction, match_reduction.
      apply sim_pure. intros ti Hti. rewrite Hti in R. destruct (_ || _); [apply sim_ret|].
      destruct (match_reduction_by_body e3 acc) as [[elem r]|]; [|apply sim_ret]. destruct (negb _); [apply sim_ret|discriminate]. }
    intros [ra|] _; [apply sim_more, sim_ret|].
    assert (KF : In ([SV c; SV acc], e3) (kids (PFold c e1 acc e2 e3))) by (cbn [CodegenLocal.kids]; rewrite R; simpl; auto).
    assert (KS : In ([], e1) (kids (PFold c e1 acc e2 e3))) by (cbn [CodegenLocal.kids]; rewrite R; simpl; auto).
    assert (KI : In ([], e2) (kids (PFold c e1 acc e2 e3))) by (cbn [CodegenLocal.kids]; rewrite R; simpl; auto).
    apply sim_bind; [apply K0; auto|]. intros s0 _. apply sim_pure. intros s1 _. apply sim_bind; [apply K0; auto|]. intros i Hi.
    assert (B : forall x, In x (ax_axes i) -> S (SX x)) by (eapply RE; eauto).
    assert (BB : forall ax, (forall x, In x ax -> S (SX x)) -> sim (PFold c e1 acc e2 e3) S idxs vax [PFold c e1 acc e2 e3]
      (mgo fuel idxs ((acc, ax) :: vax) e3) (go fuel idxs ((acc, ax) :: vax) e3)).
    { intros ax Hax. apply (K2 [SV c; SV acc] e3 [(acc, ax)]); [auto| |].
      - intros y ay [H|[]]. injection H as <- <-. simpl. auto.
      - intros y ay j [H|[]] Hj. injection H as <- <-. left. auto. }
    apply sim_bind; [apply sim_forget; auto|]. intros b0 Hb0. cbv zeta.
    assert (B0 : forall x, In x (ax_axes b0) -> S (SX x)).
    { intros x Hx. assert (Q : more S [SV c; SV acc] (SX x)); [|destruct Q as [Q|[Q|[Q|[]]]]; [auto|discriminate..]].
      assert (C' : cok (more S [SV c; SV acc]) idxs ((acc, ax_axes i) :: vax) e3).
      { apply (cok_bind fl orc p TD S idxs vax _ [SV c; SV acc] e3 [(acc, ax_axes i)] C); [auto| |].
        + intros y ay [H|[]]. injection H as <- <-. simpl. auto.
        + intros y ay j [H|[]] Hj. injection H as <- <-. left. auto. }
      revert x Hx. apply (go_reach fl orc p TD fuel e3 (more S [SV c; SV acc]) idxs ((acc, ax_axes i) :: vax) b0); auto.
      - apply (c_free _ _ _ _ _ _ _ C').
      - eapply scope_closed; eauto. }
    apply sim_last; [auto|]. intros b. repeat (apply inert_pure; intros ?). apply inert_ret.
  - (* Reduce *)
    set (e := PReduce e1 x y e2 vecs) in *. set (n := name_of orc e).
    assert (KI : In ([], e1) (kids e)) by (left; auto).
    assert (KF : In ([SV x; SV y; SX n], e2) (kids e)) by (right; left; auto).
    assert (KV : forall o, In o vecs -> In ([], o) (kids e)) by (intros o Ho; unfold e; cbn [CodegenLocal.kids]; right; right; apply in_map; auto).
    apply sim_bind; [apply K0; auto|]. intros i Hi. apply sim_bind; [apply sim_mapM; auto|]. intros vs Hvs. cbv zeta.
    assert (HA : forall z, In z (alignment (ax_axes i :: map ax_axes vs)) -> S (SX z)).
    { apply AL. intros ax [<-|Hax]; [eapply RE; eauto|].
      apply in_map_iff in Hax as (v & <- & Hv). destruct (mapM_In _ _ _ _ Hvs Hv) as (o & Ho & Hgo). exact (RE o v (KV o Ho) Hgo). }
    assert (BB : forall ax, (forall z, In z ax -> S (SX z) \/ z = n) -> sim e S idxs vax [e]
      (mgo fuel idxs ((x, ax) :: (y, ax) :: vax) e2) (go fuel idxs ((x, ax) :: (y, ax) :: vax) e2)).
    { intros ax Hax. apply (K2 [SV x; SV y; SX n] e2 [(x, ax); (y, ax)]); [auto| |].
      - intros w ay [H|[H|[]]]; injection H as <- <-; simpl; auto.
      - intros w ay j [H|[H|[]]] Hj; injection H as <- <-; (destruct (Hax _ Hj) as [Q| ->]; [left; auto|right; simpl; auto]). }
    apply sim_bind; [apply sim_forget; auto|]. intros b0 Hb0.
    assert (B0 : forall z, In z (ax_axes b0) -> S (SX z)).
    { intros z Hz. assert (Q : more S [SV x; SV y] (SX z)); [|destruct Q as [Q|[Q|[Q|[]]]]; [auto|discriminate..]].
      revert z Hz. eapply (go_reach fl orc p TD fuel e2 (more S [SV x; SV y; SX n])); [|exact Hb0| | |].
      - apply (cok_bind fl orc p TD S idxs vax _ [SV x; SV y; SX n] e2 [(x, alignment (ax_axes i :: map ax_axes vs)); (y, alignment (ax_axes i :: map ax_axes vs))] C); [auto| |].
        + intros w ay [H|[H|[]]]; injection H as <- <-; simpl; auto.
        + intros w ay j [H|[H|[]]] Hj; injection H as <- <-; left; auto.
      - intros s [Hs|Hs]; [left; auto|right]. simpl in Hs |- *. tauto.
      - intros s Hs. destruct (vis_reduce e1 x y e2 vecs s Hs) as [K|[->| ->]]; [left; eapply c_free; eauto|right; simpl; auto..].
      - intros w z Hw. rewrite !axes_of_cons. destruct (Nat.eqb_spec x w) as [->|N1]; [left; auto|].
        destruct (Nat.eqb_spec y w) as [->|N2]; [left; auto|]. intros Hz. left.
        destruct Hw as [Hw|[Hw|[Hw|[]]]]; [eapply scope_closed; eauto|congruence..]. }
    assert (NR : new_index orc idxs ((x, ax_axes b0) :: vax) e = n) by (apply (name_reduce fl orc p TD S); auto). rewrite NR.
    apply sim_last; [apply BB; intros z Hz; apply in_app_or in Hz as [Hz|[<-|[]]]; auto|].
    intros b. repeat (apply inert_pure; intros ?). apply inert_ret.
  - apply sim_more. destruct o; kid_ K0; pure_.
  - apply sim_more. kid_ K0. kid_ K0. cbv zeta. pure_.
  - apply sim_more. kid_ K0. kid_ K0. kid_ K0. cbv zeta. pure_.
  - apply sim_more. kid_ K0. kid_ K0. cbv zeta. pure_.
  - apply sim_more. apply sim_bind; [apply sim_mapM; intros o Ho; apply K0; simpl; apply in_map; auto|]. intros xs _. cbv zeta. pure_.
Qed.

Lemma cok_root : cok (fun s => free_in s p) [] [] p.
Proof. split; auto; [constructor|intros i []..]. Qed.

Theorem memo_transparent fuel : weight p <= fuel -> mlower fl orc fuel p = lower fl orc fuel p.
Proof.
  intros W. unfold mlower, lower. pose proof (all_sound fuel p _ [] [] [] cok_root W) as H.
  destruct (mgo fuel [] [] p []) as [[a m]|x]; cbn [bind fst].
  - destruct H as (-> & _); [intros e a' Ha; discriminate|]. auto.
  - rewrite H by (intros e a' Ha; discriminate). auto.
Qed.
End MemoSound.
