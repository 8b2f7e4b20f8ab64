(** The code generated for a program that binds every symbol once binds every
    symbol once: where the translation meets a term again, the code is the same
    (phi_to_yarr.py:41-306). *)
From Verif Require Import Base Scalar Tensor Types Sym Phi Den Term PhiTerm DenFree SpecPhi Lining Outline Typing
  Sizes ClipShift NdOps NdFacts Yarr YTerm Axial AxialFacts AxialOps Codegen IndexOps CodegenGet CodegenCtx CodegenCases Subst
  CodegenAxes Soa SoaFacts YOps CodegenSafe CodegenRed CodegenLocal SizeSound Compile.

Section Binders.
Context {FO : FloatOps} {EX : Externs}.
Variable fl : flags.
Variable orc : oracle.
Variable p : phi.
Hypothesis TD : tidy fl orc p.
Notation vis := (visits fl orc p).
Notation kids := (kids fl orc).
Notation binds_here := (binds_here fl orc).
Notation cok := (cok fl orc p).
Notation go := (go fl orc).

(** * The contexts the code is generated in *)

(** From a term to those its code is made of.  The bodies of folds and reductions
    are translated twice, the code is that of the second time. *)
Inductive step : phi -> idx_sizes -> var_axes -> list sym -> phi -> idx_sizes -> var_axes -> Prop :=
| st_kid e idxs vax c : In ([], c) (kids e) -> step e idxs vax [] c idxs vax
| st_let x b body idxs vax f a : weight b <= f -> go f idxs vax b = Ok a ->
    step (PLet x b body) idxs vax [SV x] body idxs ((x, ax_axes a) :: vax)
| st_vec i size body idxs vax f a s : weight size <= f -> go f idxs vax size = Ok a -> normal a = Ok s ->
    step (PVec i size body) idxs vax [SX i] body ((i, s) :: idxs) vax
| st_fold c size acc init body idxs vax f a b0 : reduces fl orc c size acc init body = None ->
    weight init <= f -> weight body <= f -> go f idxs vax init = Ok a -> go f idxs ((acc, ax_axes a) :: vax) body = Ok b0 ->
    step (PFold c size acc init body) idxs vax [SV c; SV acc] body idxs ((acc, ax_axes b0) :: vax)
| st_reduce init x y xy vecs idxs vax f a vs b0 : let e := PReduce init x y xy vecs in
    weight e <= S f ->
    go f idxs vax init = Ok a -> mapM (go f idxs vax) vecs = Ok vs ->
    let some_axes := alignment (ax_axes a :: map ax_axes vs) in
    go f idxs ((x, some_axes) :: (y, some_axes) :: vax) xy = Ok b0 ->
    let xy_axes := ax_axes b0 ++ [name_of orc e] in
    step e idxs vax [SV x; SV y; SX (name_of orc e)] xy idxs ((x, xy_axes) :: (y, xy_axes) :: vax).

Inductive ctx : (sym -> Prop) -> idx_sizes -> var_axes -> phi -> Prop :=
| ctx_root : ctx (fun s => free_in s p) [] [] p
| ctx_step S idxs vax e sc c idxs' vax' : ctx S idxs vax e -> step e idxs vax sc c idxs' vax' -> ctx (more S sc) idxs' vax' c.

Lemma step_kid e idxs vax sc c idxs' vax' : step e idxs vax sc c idxs' vax' -> In (sc, c) (kids e).
Proof.
  intros H. inversion H; subst; auto; cbn [CodegenLocal.kids]; simpl; auto.
  match goal with R : reduces _ _ _ _ _ _ _ = None |- _ => rewrite R end. simpl. auto.
Qed.
Lemma step_binds e idxs vax sc c idxs' vax' s : step e idxs vax sc c idxs' vax' -> In s sc -> In s (binds_here e).
Proof. intros H Hs. apply step_kid in H. unfold CodegenLocal.binds_here. apply in_flat_map. eauto. Qed.

(** The axes of what is bound are in scope. *)
Lemma cok_closed S idxs vax e : cok S idxs vax e -> closed S vax.
Proof. intros C y i _ Hi. eapply c_axes; eauto. eapply axes_of_In; eauto. Qed.
Lemma cok_reach S idxs vax e f a : cok S idxs vax e -> go f idxs vax e = Ok a -> forall i, In i (ax_axes a) -> S (SX i).
Proof.
  intros C H. eapply (go_reach fl orc p TD); eauto; [apply (c_free _ _ _ _ _ _ _ C)|eapply cok_closed; eauto].
Qed.

Lemma more_sv S l i : more S l (SX i) -> (forall s, In s l -> exists x, s = SV x) -> S (SX i).
Proof. intros [H|H] K; auto. destruct (K _ H) as (x & Q). discriminate. Qed.

Lemma fold_cok S idxs vax c size acc init body ax : cok S idxs vax (PFold c size acc init body) ->
  reduces fl orc c size acc init body = None -> (forall i, In i ax -> S (SX i)) ->
  cok (more S [SV c; SV acc]) idxs ((acc, ax) :: vax) body.
Proof.
  intros C R H. apply (cok_bind fl orc p TD S idxs vax _ [SV c; SV acc] body [(acc, ax)] C).
  - cbn [CodegenLocal.kids]. rewrite R. simpl. auto.
  - intros x ax' [Q|[]]. injection Q as <- <-. simpl. auto.
  - intros x ax' i [Q|[]] Hi. injection Q as <- <-. left. auto.
Qed.
Lemma reduce_cok S idxs vax init x y xy vecs ax : let e := PReduce init x y xy vecs in cok S idxs vax e ->
  (forall i, In i ax -> S (SX i) \/ i = name_of orc e) ->
  cok (more S [SV x; SV y; SX (name_of orc e)]) idxs ((x, ax) :: (y, ax) :: vax) xy.
Proof.
  intros e C H. apply (cok_bind fl orc p TD S idxs vax e [SV x; SV y; SX (name_of orc e)] xy [(x, ax); (y, ax)] C).
  - simpl. auto.
  - intros w ax' [Q|[Q|[]]]; injection Q as <- <-; simpl; auto.
  - intros w ax' i [Q|[Q|[]]] Hi; injection Q as <- <-; (destruct (H _ Hi) as [K| ->]; [left; auto|right; simpl; auto]).
Qed.
Lemma fold_axes S idxs vax c size acc init body f a b0 : cok S idxs vax (PFold c size acc init body) ->
  reduces fl orc c size acc init body = None -> go f idxs vax init = Ok a -> go f idxs ((acc, ax_axes a) :: vax) body = Ok b0 ->
  (forall i, In i (ax_axes a) -> S (SX i)) /\ (forall i, In i (ax_axes b0) -> S (SX i)).
Proof.
  intros C R HA HB.
  assert (A : forall i, In i (ax_axes a) -> S (SX i)).
  { eapply cok_reach; [|exact HA]. eapply cok_kid; eauto. cbn [CodegenLocal.kids]. rewrite R. simpl. auto. }
  split; auto. intros i Hi. eapply more_sv; [eapply cok_reach; [eapply fold_cok; eauto|exact HB|exact Hi]|].
  intros s [<-|[<-|[]]]; eauto.
Qed.
Lemma reduce_axes S idxs vax init x y xy vecs f a vs : let e := PReduce init x y xy vecs in cok S idxs vax e ->
  go f idxs vax init = Ok a -> mapM (go f idxs vax) vecs = Ok vs ->
  forall i, In i (alignment (ax_axes a :: map ax_axes vs)) -> S (SX i).
Proof.
  intros e C HA HV i Hi. apply alignment_In in Hi as (ax & Hax & Hi). destruct Hax as [<-|Hax].
  - eapply cok_reach; [|exact HA|exact Hi]. eapply cok_kid; eauto. left. auto.
  - apply in_map_iff in Hax as (v & <- & Hv). destruct (mapM_In _ _ _ _ HV Hv) as (o & Ho & Hgo).
    eapply cok_reach; [|exact Hgo|exact Hi]. eapply cok_kid; eauto. right. right. apply in_map. auto.
Qed.

Lemma reduce_axes0 S idxs vax init x y xy vecs f a vs b0 : let e := PReduce init x y xy vecs in cok S idxs vax e ->
  go f idxs vax init = Ok a -> mapM (go f idxs vax) vecs = Ok vs ->
  let some_axes := alignment (ax_axes a :: map ax_axes vs) in
  go f idxs ((x, some_axes) :: (y, some_axes) :: vax) xy = Ok b0 ->
  forall i, In i (ax_axes b0) -> S (SX i).
Proof.
  intros e C HA HV ax HB.
  pose proof (reduce_axes S idxs vax init x y xy vecs f a vs C HA HV) as A. fold ax in A.
  assert (C' : cok (more S [SV x; SV y; SX (name_of orc e)]) idxs ((x, ax) :: (y, ax) :: vax) xy) by (apply reduce_cok; auto).
  intros i Hi. eapply (more_sv S [SV x; SV y]); [|intros s [<-|[<-|[]]]; eauto].
  revert i Hi. eapply (go_reach fl orc p TD); [exact C'|exact HB| | |].
  - intros s [Hs|Hs]; [left; auto|right]. simpl in Hs |- *. tauto.
  - intros s Hs. destruct (vis_reduce init x y xy vecs s Hs) as [K|[->| ->]]; [left; eapply c_free; eauto|right; simpl; auto..].
  - intros w z Hw. rewrite !axes_of_cons. destruct (Nat.eqb_spec x w) as [->|N1]; [left; auto|].
    destruct (Nat.eqb_spec y w) as [->|N2]; [left; auto|]. intros Hz. left. eapply c_axes; eauto. eapply axes_of_In; eauto.
Qed.

Lemma step_cok S e idxs vax sc c idxs' vax' : cok S idxs vax e -> step e idxs vax sc c idxs' vax' -> cok (more S sc) idxs' vax' c.
Proof.
  intros C H. pose proof (step_kid _ _ _ _ _ _ _ H) as K. inversion H; subst.
  - eapply cok_enter; eauto; intros i Hi; left; [eapply c_keys|eapply c_axes|eapply c_vars]; eauto.
  - apply (cok_bind fl orc p TD S idxs' vax _ [SV x] c [(x, ax_axes a)] C); auto.
    + intros y ax [Q|[]]. injection Q as <- <-. simpl. auto.
    + intros y ax i [Q|[]] Hi. injection Q as <- <-. left. eapply cok_reach; [|eauto|exact Hi]. eapply cok_kid; eauto. simpl. auto.
  - eapply cok_enter; eauto.
    + intros j. simpl. intros [<-|Q]; [right; simpl; auto|left; eapply c_keys; eauto].
    + intros j Hj. left. eapply c_axes; eauto.
    + intros j Hj. left. eapply c_vars; eauto.
  - eapply fold_cok; eauto. eapply fold_axes; eauto.
  - apply reduce_cok; auto. intros i Hi. subst xy_axes. apply in_app_or in Hi as [Hi|[<-|[]]]; auto. left.
    eapply (reduce_axes0 S idxs' vax); eauto.
Qed.
Lemma ctx_cok S idxs vax e : ctx S idxs vax e -> cok S idxs vax e.
Proof.
  induction 1 as [|S idxs vax e sc c idxs' vax' H IH ST].
  - split; auto; [constructor|intros i []..].
  - eapply step_cok; eauto.
Qed.

(** * Terms met again *)

Definition entry_eq (s : sym) i1 v1 i2 v2 : Prop :=
  match s with SX i => assoc i i1 = assoc i i2 :> option yarr | SV x => axes_of v1 x = axes_of v2 x end.

Lemma go_again e f1 f2 F S1 S2 i1 v1 i2 v2 a b : cok S1 i1 v1 e -> cok S2 i2 v2 e -> same F i1 v1 i2 v2 ->
  (forall s, F s -> S1 s) -> (forall s, F s -> S2 s) -> (forall s, free_in s e -> F s) -> weight e <= f1 -> weight e <= f2 ->
  go f1 i1 v1 e = Ok a -> go f2 i2 v2 e = Ok b -> a = b.
Proof.
  intros C1 C2 SM F1 F2 FR W1 W2 H1 H2. rewrite (go_local fl orc p TD f1 e f2 F S1 S2 i1 v1 i2 v2) in H1; auto. congruence.
Qed.

Lemma step_once e S1 S2 (F : sym -> Prop) i1 v1 i2 v2 sc1 c1 i1' v1' sc2 c2 i2' v2' s :
  cok S1 i1 v1 e -> cok S2 i2 v2 e -> same F i1 v1 i2 v2 ->
  (forall s, F s -> S1 s) -> (forall s, F s -> S2 s) -> (forall s, free_in s e -> F s) ->
  step e i1 v1 sc1 c1 i1' v1' -> step e i2 v2 sc2 c2 i2' v2' -> In s sc1 -> In s sc2 -> entry_eq s i1' v1' i2' v2'.
Proof.
  intros C1 C2 SM F1 F2 FR T1 T2 H1 H2. pose proof (c_vis _ _ _ _ _ _ _ C1) as V.
  assert (AG : forall c f1 f2 a b, In ([], c) (kids e) -> weight c <= f1 -> weight c <= f2 -> go f1 i1 v1 c = Ok a -> go f2 i2 v2 c = Ok b -> a = b).
  { intros c f1 f2 a b Hk W1 W2 G1 G2. eapply (go_again c f1 f2 F S1 S2); eauto; [eapply cok_kid; eauto..|].
    intros s0 Hs. destruct (kid_free fl orc p TD _ _ _ s0 V Hk Hs) as [Q|[]]; auto. }
  assert (RE : forall c f a, In ([], c) (kids e) -> go f i1 v1 c = Ok a -> forall i, In i (ax_axes a) -> F (SX i)).
  { intros c f a Hk Ha. eapply (go_reach fl orc p TD); [exact (cok_kid fl orc p TD _ _ _ _ _ C1 Hk)|exact Ha|exact F1| |apply (s_closed _ _ _ _ _ SM)].
    intros s0 Hs. destruct (kid_free fl orc p TD _ _ _ s0 V Hk Hs) as [Q|[]]; auto. }
  assert (BH : forall sc c s, In (sc, c) (kids e) -> In s sc -> In s (binds_here e)).
  { intros sc c s0 Hk Hs. unfold CodegenLocal.binds_here. apply in_flat_map. eauto. }
  assert (AG2 : forall sc c bs f1 f2 a b, In (sc, c) (kids e) -> (forall x ax, In (x, ax) bs -> In (SV x) sc) ->
     (forall x ax i, In (x, ax) bs -> In i ax -> more F sc (SX i)) -> weight c <= f1 -> weight c <= f2 ->
     go f1 i1 (bs ++ v1) c = Ok a -> go f2 i2 (bs ++ v2) c = Ok b -> a = b).
  { intros sc c bs f1 f2 a b Hk B1 B2 W1 W2 G1 G2.
    eapply (go_again c f1 f2 (more F sc) (more S1 sc) (more S2 sc)); [| | | | | | | |exact G1|exact G2]; auto.
    - apply (cok_bind fl orc p TD S1 i1 v1 e); auto. intros x ax i Hx Hi. destruct (B2 _ _ _ Hx Hi) as [Q|Q]; [left|right]; auto.
    - apply (cok_bind fl orc p TD S2 i2 v2 e); auto. intros x ax i Hx Hi. destruct (B2 _ _ _ Hx Hi) as [Q|Q]; [left|right]; auto.
    - apply same_enter; auto.
      + intros x Hx. right. split; [eapply (cok_var fl orc p TD S1)|eapply (cok_var fl orc p TD S2)]; eauto.
      + intros i Hi. split; [eapply (cok_idx fl orc p TD S1)|eapply (cok_idx fl orc p TD S2)]; eauto.
    - intros s0 [Hs|Hs]; [left|right]; auto.
    - intros s0 [Hs|Hs]; [left|right]; auto.
    - intros s0 Hs. destruct (kid_free fl orc p TD _ _ _ s0 V Hk Hs) as [Q|Q]; [left|right]; auto. }
  pose proof (step_kid _ _ _ _ _ _ _ T1) as K1.
  inversion T1; subst; [destruct H1|..]; inversion T2; subst; try (destruct H2; fail).
  - (* let *) destruct H1 as [<-|[]]. simpl. rewrite !axes_of_cons, !Nat.eqb_refl. f_equal.
    eapply (AG b f f0); eauto. simpl. auto.
  - (* vec *) destruct H1 as [<-|[]]. simpl. rewrite Nat.eqb_refl. f_equal.
    assert (a = a0) by (eapply (AG size f f0); eauto; simpl; auto). congruence.
  - (* fold *)
    assert (KI : In ([], init) (kids (PFold c size acc init c2))).
    { cbn [CodegenLocal.kids]. match goal with R : reduces _ _ _ _ _ _ _ = None |- _ => rewrite R end. simpl. auto. }
    assert (a = a0) by (eapply (AG init f f0); eauto). subst a0.
    assert (b0 = b1).
    { eapply (AG2 [SV c; SV acc] c2 [(acc, ax_axes a)] f f0); eauto.
      - intros y ay [Q|[]]. injection Q as <- <-. simpl. auto.
      - intros y ay j [Q|[]] Hj. injection Q as <- <-. left. eapply RE; eauto. }
    subst b1. destruct H1 as [<-|[<-|[]]]; cbn [entry_eq]; rewrite !axes_of_cons.
    + destruct (acc =? c); auto. erewrite !(cok_var fl orc p TD); eauto; eapply BH; eauto; simpl; auto.
    + rewrite Nat.eqb_refl. auto.
  - (* reduce *)
    set (n := PReduce init x y c2 vecs) in *.
    assert (WI : weight init <= f /\ weight init <= f0) by (unfold n in *; simpl in *; lia).
    assert (a = a0) by (eapply (AG init f f0); eauto; try lia; left; auto). subst a0.
    assert (vs = vs0).
    { match goal with Q1 : mapM (go f _ _) vecs = Ok vs, Q2 : mapM (go f0 _ _) vecs = Ok vs0 |- _ =>
        rewrite (mapM_ext (go f i1' v1) (go f0 i2' v2)) in Q1; [congruence|] end.
      intros o Ho.
      assert (Hk : In ([], o) (kids n)) by (right; right; apply in_map; auto).
      assert (WO : weight o <= f /\ weight o <= f0).
      { assert (weight o <= list_sum (map weight vecs)) by (apply list_sum_In, in_map; auto). unfold n in *. simpl in *. lia. }
      eapply (go_local fl orc p TD f o f0 F S1 S2); try apply WO; auto; [eapply cok_kid; eauto..|].
      intros s0 Hs. destruct (kid_free fl orc p TD _ _ _ s0 V Hk Hs) as [Q|[]]; auto. }
    subst vs0.
    assert (b0 = b1).
    { eapply (AG2 [SV x; SV y; SX (name_of orc n)] c2 [(x, some_axes); (y, some_axes)] f f0); eauto.
      - intros w ay [Q|[Q|[]]]; injection Q as <- <-; simpl; auto.
      - intros w ay j Hw Hj. left. assert (ay = some_axes) by (destruct Hw as [Q|[Q|[]]]; congruence). subst ay.
        unfold some_axes in Hj. apply alignment_In in Hj as (ax & Hax & Hi). destruct Hax as [<-|Hax].
        + eapply (RE init); eauto. left. auto.
        + apply in_map_iff in Hax as (v & <- & Hv).
          match goal with Q1 : mapM (go f _ _) vecs = Ok vs |- _ => destruct (mapM_In _ _ _ _ Q1 Hv) as (o & Ho & Hgo) end.
          eapply (RE o); eauto. right. right. apply in_map. auto.
      - unfold n in *. simpl in *. lia.
      - unfold n in *. simpl in *. lia. }
    subst b1. destruct H1 as [<-|[<-|[<-|[]]]]; cbn [entry_eq].
    + rewrite !axes_of_cons, !Nat.eqb_refl. auto.
    + rewrite !axes_of_cons, !Nat.eqb_refl. auto.
    + erewrite !(cok_idx fl orc p TD); eauto; eapply BH; eauto; simpl; auto.
Qed.

(** What is known of a symbol in scope was recorded where it was bound. *)
Lemma entry_origin S idxs vax e : ctx S idxs vax e -> forall s, S s ->
  (free_in s p /\ match s with SX i => assoc i idxs = None | SV x => axes_of vax x = [] end) \/
  exists S0 i0 v0 n sc c i1 v1, ctx S0 i0 v0 n /\ step n i0 v0 sc c i1 v1 /\ In s sc /\ weight e < weight n /\ entry_eq s idxs vax i1 v1.
Proof.
  induction 1 as [|S idxs vax e sc c idxs' vax' H IH ST]; intros s Hs.
  - left. split; auto. destruct s; reflexivity.
  - pose proof (ctx_cok _ _ _ _ H) as C. pose proof (step_kid _ _ _ _ _ _ _ ST) as K.
    pose proof (kid_weight fl orc p TD _ _ _ (c_vis _ _ _ _ _ _ _ C) K) as W.
    destruct (in_dec sym_eq_dec s sc) as [I|N].
    { right. exists S, idxs, vax, e, sc, c, idxs', vax'. repeat (split; auto). destruct s; simpl; auto. }
    destruct Hs as [Hs|Hs]; [|tauto].
    assert (EQ : entry_eq s idxs' vax' idxs vax).
    { clear - N ST. inversion ST; subst; destruct s as [z|z]; simpl in *; auto; rewrite ?axes_of_cons.
      - destruct (Nat.eqb_spec x z); auto. subst. tauto.
      - destruct (Nat.eqb_spec z i); auto. subst. tauto.
      - destruct (Nat.eqb_spec acc z); auto. subst. tauto.
      - destruct (Nat.eqb_spec x z); [subst; tauto|]. destruct (Nat.eqb_spec y z); [subst; tauto|]. auto. }
    destruct (IH s Hs) as [[A B]|(S0 & i0 & v0 & n & sc0 & c0 & i1 & v1 & Q1 & Q2 & Q3 & Q4 & Q5)].
    + left. split; auto. destruct s; simpl in *; congruence.
    + right. exists S0, i0, v0, n, sc0, c0, i1, v1. repeat (split; auto); [lia|]. destruct s; simpl in *; congruence.
Qed.

Lemma vis_weight e : vis e -> weight e <= weight p.
Proof. induction 1 as [|e sc c V IH K]; auto. pose proof (kid_weight fl orc p TD _ _ _ V K). lia. Qed.

Lemma ctx_agree k : forall S1 S2 i1 v1 i2 v2 e1 e2, weight p - weight e1 <= k -> ctx S1 i1 v1 e1 -> ctx S2 i2 v2 e2 ->
  same (fun s => S1 s /\ S2 s) i1 v1 i2 v2.
Proof.
  induction k as [k IH] using lt_wf_ind. intros S1 S2 i1 v1 i2 v2 e1 e2 HK H1 H2.
  pose proof (ctx_cok _ _ _ _ H1) as C1. pose proof (ctx_cok _ _ _ _ H2) as C2.
  assert (EN : forall s, S1 s -> S2 s -> entry_eq s i1 v1 i2 v2).
  { intros s A1 A2.
    destruct (entry_origin _ _ _ _ H1 s A1) as [[P1 Q1]|(T1 & j1 & w1 & n1 & sc1 & c1 & j1' & w1' & X1 & Y1 & Z1 & W1 & E1)];
    destruct (entry_origin _ _ _ _ H2 s A2) as [[P2 Q2]|(T2 & j2 & w2 & n2 & sc2 & c2 & j2' & w2' & X2 & Y2 & Z2 & W2 & E2)].
    - destruct s; simpl; congruence.
    - exfalso. eapply (t_free _ _ _ TD n2 s); eauto; [|eapply step_binds; eauto]. apply (c_vis _ _ _ _ _ _ _ (ctx_cok _ _ _ _ X2)).
    - exfalso. eapply (t_free _ _ _ TD n1 s); eauto; [|eapply step_binds; eauto]. apply (c_vis _ _ _ _ _ _ _ (ctx_cok _ _ _ _ X1)).
    - pose proof (ctx_cok _ _ _ _ X1) as D1. pose proof (ctx_cok _ _ _ _ X2) as D2.
      assert (n2 = n1).
      { eapply (t_once _ _ _ TD); [apply (c_vis _ _ _ _ _ _ _ D2)|apply (c_vis _ _ _ _ _ _ _ D1)|eapply step_binds; eauto..]. }
      subst n2. pose proof (vis_weight _ (c_vis _ _ _ _ _ _ _ D1)) as WP.
      assert (SM : same (fun s => T1 s /\ T2 s) j1 w1 j2 w2).
      { eapply (IH (weight p - weight n1)); [|reflexivity|exact X1|exact X2]. lia. }
      assert (EE : entry_eq s j1' w1' j2' w2').
      { eapply (step_once n1 T1 T2); [exact D1|exact D2|exact SM|intros ? [? ?]; auto|intros ? [? ?]; auto| |exact Y1|exact Y2|auto|auto].
        intros s0 Hs. split; eapply c_free; eauto. }
      destruct s; simpl in *; congruence. }
  split.
  - intros i [A B]. exact (EN (SX i) A B).
  - intros x [A B]. exact (EN (SV x) A B).
  - intros y i [A B] Hi. pose proof (EN (SV y) A B) as Q. simpl in Q. split.
    + eapply (c_axes _ _ _ _ _ _ _ C1). eapply axes_of_In; eauto.
    + rewrite Q in Hi. eapply (c_axes _ _ _ _ _ _ _ C2). eapply axes_of_In; eauto.
Qed.

Theorem same_code S1 S2 i1 v1 i2 v2 e f1 f2 a b : ctx S1 i1 v1 e -> ctx S2 i2 v2 e -> weight e <= f1 -> weight e <= f2 ->
  go f1 i1 v1 e = Ok a -> go f2 i2 v2 e = Ok b -> a = b.
Proof.
  intros H1 H2 W1 W2 G1 G2. pose proof (ctx_cok _ _ _ _ H1) as C1. pose proof (ctx_cok _ _ _ _ H2) as C2.
  eapply (go_again e f1 f2 (fun s => S1 s /\ S2 s) S1 S2); eauto; try (intros ? [? ?]; auto; fail).
  - eapply ctx_agree; eauto.
  - intros s Hs. split; eapply c_free; eauto.
Qed.

(** * Constants *)

Fixpoint pconsts (e : phi) : list arr :=
  match e with
  | PConst a => [a]
  | PStore _ _ => []
  | PLet _ b body => pconsts b ++ pconsts body
  | PAssertEq t ops => pconsts t ++ flat_map pconsts ops
  | PDim t _ => pconsts t
  | PGet t i => pconsts t ++ pconsts i
  | PCons a b => pconsts a ++ pconsts b
  | PFirst t | PSecond t => pconsts t
  | PVec _ s b => pconsts s ++ pconsts b
  | PFold _ s _ init b => pconsts s ++ pconsts init ++ pconsts b
  | PReduce init _ _ xy vecs => pconsts init ++ pconsts xy ++ flat_map pconsts vecs
  | PUn _ a => pconsts a
  | PBin _ a b => pconsts a ++ pconsts b
  | PWhere c a b => pconsts c ++ pconsts a ++ pconsts b
  | PConcat a b => pconsts a ++ pconsts b
  | PExt _ _ ops => flat_map pconsts ops
  end.

Lemma pconsts_sub e k : In k (pconsts e) -> sub_of (PConst k) e.
Proof.
  assert (L : forall ops, Forall (fun e => In k (pconsts e) -> sub_of (PConst k) e) ops -> In k (flat_map pconsts ops) ->
    exists o, In o ops /\ sub_of (PConst k) o).
  { intros ops F H. rewrite Forall_forall in F. apply in_flat_map in H as (o & Ho & H). eauto. }
  induction e using phi_ind'; simpl; rewrite ?in_app_iff; intros K;
    repeat match goal with K : _ \/ _ |- _ => destruct K as [K|K] end; try tauto.
  { subst. constructor. }
  all: try (match goal with IH : In _ (pconsts ?c) -> _, K : In _ (pconsts ?c) |- _ => apply (sub_step _ c); [simpl; rewrite ?in_app_iff; simpl; tauto|apply IH; exact K] end; fail).
  all: match goal with L : forall ops, Forall _ ops -> _, K : In _ (flat_map pconsts ?ops), F : Forall _ ?ops |- _ => destruct (L ops F K) as (o & Ho & K');
    apply (sub_step _ o); [simpl; rewrite ?in_app_iff; simpl; tauto|exact K'] end.
Qed.

Lemma pconsts_at i c (e : phi) : pconsts (psub [(SV c, p_at i)] e) = pconsts e.
Proof.
  assert (L : forall ops, Forall (fun e => pconsts (psub [(SV c, p_at i)] e) = pconsts e) ops ->
    flat_map pconsts (map (psub [(SV c, p_at i)]) ops) = flat_map pconsts ops).
  { induction 1 as [|o ops H F IH]; simpl; auto. congruence. }
  induction e using phi_ind'; simpl; rewrite ?L by auto; try congruence.
  unfold sassoc. simpl. destruct (sym_eqb s (SV c)); reflexivity.
Qed.
Lemma pconsts_dim t : forall ax, incl (pconsts (dim_of t ax)) (pconsts t).
Proof.
  induction t using phi_ind'; intros k; cbn [dim_of]; try apply incl_refl.
  - simpl. apply incl_appl. auto.
  - destruct k; simpl; [apply incl_appl|]; apply incl_refl.
Qed.

Definition part_const (e : phi) (o : option phi) : Prop := forall q, o = Some q -> incl (pconsts q) (pconsts e).
Definition parts_const (e : phi) (t : option clipped) : Prop :=
  forall d lo hi, t = Some (d, lo, hi) -> part_const e d /\ part_const e lo /\ part_const e hi.
Lemma pc_first e a b : parts_const e a -> parts_const e b -> parts_const e (first_opt a b).
Proof. destruct a; simpl; auto. Qed.
Lemma pc_none1 e : part_const e None.
Proof. intros q H. discriminate. Qed.
Lemma pc_none e : parts_const e (Some (None, None, None)).
Proof. intros d lo hi H. injection H as <- <- <-. auto using pc_none1. Qed.
Lemma part_const_incl e a o : part_const a o -> incl (pconsts a) (pconsts e) -> part_const e o.
Proof. intros H I q Q. eapply incl_tran; eauto. Qed.

Lemma pc_add e a other t : parts_const a t -> incl (pconsts a) (pconsts e) -> incl (pconsts other) (pconsts e) ->
  parts_const e (clip_shift_add t other).
Proof.
  intros H Ia Io d lo hi. unfold clip_shift_add. destruct (negb _); [discriminate|].
  destruct t as [[[d0 [l0|]] [h0|]]|]; try discriminate. intros Q. injection Q as <- <- <-.
  destruct (H _ _ _ eq_refl) as (Hd & _ & _). split; [|auto using pc_none1].
  intros q Q. injection Q as <-. destruct d0 as [d0|]; auto. simpl. apply incl_app; auto. eapply incl_tran; eauto.
Qed.
Lemma pc_min e a other t : parts_const a t -> incl (pconsts a) (pconsts e) -> incl (pconsts other) (pconsts e) ->
  parts_const e (clip_shift_min t other).
Proof.
  intros H Ia Io d lo hi. unfold clip_shift_min. destruct (negb _); [discriminate|].
  destruct t as [[[d0 l0] h0]|]; try discriminate. intros Q. injection Q as <- <- <-.
  destruct (H _ _ _ eq_refl) as (Hd & Hl & Hh). split; [|split]; try (eapply part_const_incl; eauto; fail).
  intros q Q. injection Q as <-. destruct h0 as [h0|]; auto. simpl. apply incl_app; auto. eapply incl_tran; eauto.
Qed.
Lemma pc_max e a other t : parts_const a t -> incl (pconsts a) (pconsts e) -> incl (pconsts other) (pconsts e) ->
  parts_const e (clip_shift_max t other).
Proof.
  intros H Ia Io d lo hi. unfold clip_shift_max. destruct (negb _); [discriminate|].
  destruct t as [[[d0 l0] h0]|]; try discriminate. intros Q. injection Q as <- <- <-.
  destruct (H _ _ _ eq_refl) as (Hd & Hl & Hh). split; [|split]; try (eapply part_const_incl; eauto; fail).
  - intros q Q. injection Q as <-. destruct l0 as [l0|]; auto. simpl. apply incl_app; auto. eapply incl_tran; eauto.
  - intros q Q. destruct h0 as [h0|]; [|discriminate]. injection Q as <-. simpl. apply incl_app; auto. eapply incl_tran; eauto.
Qed.
Lemma match_const s e : parts_const e (match_clipped_shift e s).
Proof.
  assert (X1 : forall o a b, incl (pconsts a) (pconsts (PBin o a b))) by (intros; apply incl_appl, incl_refl).
  assert (X2 : forall o a b, incl (pconsts b) (pconsts (PBin o a b))) by (intros; apply incl_appr, incl_refl).
  induction e using phi_ind'; cbn [match_clipped_shift]; destruct (is_nil _); try apply pc_none; try (intros ? ? ? Q; discriminate).
  - destruct (sym_eqb _ _); [apply pc_none|intros ? ? ? Q; discriminate].
  - destruct o; try (intros ? ? ? Q; discriminate); apply pc_first.
    + apply (pc_add _ e1); auto.
    + apply (pc_add _ e2); auto.
    + apply (pc_add _ e1); auto. exact (X2 BSub e1 e2).
    + apply (pc_add _ e2); auto. unfold match_negated. destruct (is_nil _); [apply pc_none|intros ? ? ? Q; discriminate].
    + apply (pc_min _ e1); auto.
    + apply (pc_min _ e2); auto.
    + apply (pc_max _ e1); auto.
    + apply (pc_max _ e2); auto.
Qed.
Lemma shift_const item q : In q (shift_parts item) -> incl (pconsts q) (pconsts item).
Proof.
  unfold shift_parts, match_index_clipped_shift. destruct (the_index _) as [i|]; [|intros []].
  pose proof (match_const (SX i) item) as H. destruct (match_clipped_shift item (SX i)) as [[[d lo] hi]|]; simpl; [|intros []].
  destruct (H _ _ _ eq_refl) as (H1 & H2 & H3). rewrite !in_app_iff. unfold opt_list.
  intros [K|[K|K]]; [destruct d|destruct lo|destruct hi]; try destruct K as [<-|[]]; try destruct K; auto.
Qed.

Lemma kid_consts e sc c : vis e -> In (sc, c) (kids e) -> incl (pconsts c) (pconsts e).
Proof.
  intros V H a Ha.
  assert (L : forall ops, In (sc, c) (map (pair []) ops) -> In a (flat_map pconsts ops)).
  { intros ops K. apply in_map_iff in K as (o & Q & K). injection Q as <- <-. apply in_flat_map. eauto. }
  destruct e; cbn [CodegenLocal.kids] in H.
  all: try (cbn [In] in H; repeat (destruct H as [H|H]; [injection H as <- <-; simpl; rewrite ?in_app_iff; tauto|]); destruct H; fail).
  - destruct H as [H|[H|[H|H]]]; try (injection H as <- <-; simpl; rewrite ?in_app_iff; auto; fail).
    + injection H as <- <-. apply pconsts_dim in Ha. simpl. apply in_or_app. auto.
    + apply in_map_iff in H as (o & Q & K). injection Q as <- <-. apply shift_const in K. simpl. apply in_or_app. auto.
  - destruct (reduces _ _ _ _ _) as [[elem r]|] eqn:R.
    + destruct (smem _ _); [destruct H|]. pose proof (reduces_inv fl orc _ _ _ _ _ _ _ R) as (_ & _ & _ & M & _).
      destruct H as [H|[H|[]]]; [|injection H as <- <-; simpl; rewrite !in_app_iff; auto].
      rewrite (elems_psub fl orc p TD _ _ _ _ _ _ _ _ V R) in H. injection H as <- <-. simpl in Ha. rewrite pconsts_at in Ha.
      apply reduction_elem in M as (u & w & -> & [(_ & ->)|(_ & ->)]); simpl; rewrite !in_app_iff in *; tauto.
    + destruct H as [H|[H|[H|[]]]]; injection H as <- <-; simpl; rewrite !in_app_iff; auto.
  - destruct H as [H|[H|H]]; try (injection H as <- <-; simpl; rewrite !in_app_iff; auto; fail). apply L in H. simpl. rewrite !in_app_iff. auto.
  - apply L in H. simpl. auto.
Qed.
Lemma vis_consts e : vis e -> incl (pconsts e) (pconsts p).
Proof.
  induction 1 as [|e sc c V IH K]; [apply incl_refl|]. eapply incl_tran; [|exact IH]. eapply kid_consts; eauto.
Qed.

(** * The nodes of the code that bind symbols *)

Definition genuine (d : yarr) : Prop :=
  exists S idxs vax n f a, ctx S idxs vax n /\ weight n <= f /\ go f idxs vax n = Ok a /\ d = ax_expr a /\
    ycapt d = captured n /\ forall s, In s (ycapt d) -> In s (binds_here n).

Record clean (V : sym -> Prop) (y : yarr) : Prop := {
  cl_bind : forall d, sub_of d y -> ycapt d <> [] -> genuine d;
  cl_free : forall s, isfree s y -> V s;
  cl_const : forall a, sub_of (YConst a) y -> (exists z, a = ascalar (SI z)) \/ In a (pconsts p)
}.

Lemma clean_mono (V V' : sym -> Prop) y : (forall s, V s -> V' s) -> clean V y -> clean V' y.
Proof. intros H [A B C]. split; auto. Qed.

Lemma clean_node V y : ycapt y = [] -> ysym y = None -> (forall a, y <> YConst a) -> (forall c, In c (ysubs y) -> clean V c) -> clean V y.
Proof.
  intros C S K H. split.
  - intros d D. inversion D as [|d0 c y0 Hc Hd]; subst; [congruence|]. apply (cl_bind _ _ (H c Hc)). auto.
  - intros s F. inversion F as [y0 Q|y0 k c sc Hc Hs Hf Hn]; subst; [change (ysym y = Some s) in Q; congruence|].
    apply (cl_free _ _ (H c (nth_error_In _ _ Hc))). auto.
  - intros a D. inversion D as [|d0 c y0 Hc Hd]; subst; [exfalso; eapply K; eauto|]. apply (cl_const _ _ (H c Hc)). auto.
Qed.

Lemma clean_const V a : (exists z, a = ascalar (SI z)) \/ In a (pconsts p) -> clean V (YConst a).
Proof.
  intros H. split.
  - intros d D N. inversion D as [|d0 c y0 Hc Hd]; subst; [exfalso; apply N; auto|destruct Hc].
  - intros s F. inversion F as [y0 Q|y0 k c sc Hc Hs Hf Hn]; subst; [discriminate|destruct k; discriminate].
  - intros b D. inversion D as [|d0 c y0 Hc Hd]; subst; [auto|destruct Hc].
Qed.
Lemma clean_var (V : sym -> Prop) x t : V (SV x) -> clean V (YVar x t).
Proof.
  intros H. split.
  - intros d D N. inversion D as [|d0 c y0 Hc Hd]; subst; [exfalso; apply N; auto|destruct Hc].
  - intros s F. inversion F as [y0 Q|y0 k c sc Hc Hs Hf Hn]; subst; [injection Q as <-; auto|destruct k; discriminate].
  - intros b D. inversion D as [|d0 c y0 Hc Hd]; subst; destruct Hc.
Qed.
Lemma clean_int V z : clean V (yint z).
Proof. apply clean_const. eauto. Qed.

(** A node that binds symbols *)
Lemma clean_binder (V : sym -> Prop) y : genuine y -> ysym y = None -> (forall a, y <> YConst a) ->
  (forall k c sc, nth_error (ysubs y) k = Some c -> nth_error (yscopes y) k = Some sc -> clean (more V sc) c) -> clean V y.
Proof.
  intros G S K H.
  assert (H' : forall c, In c (ysubs y) -> exists sc, clean (more V sc) c).
  { intros c Hc. apply In_nth_error in Hc as (k & Hk). destruct (nth_error_scope (O := YOpsT) y k c Hk) as (sc & Hs). eauto. }
  split.
  - intros d D N. inversion D as [|d0 c y0 Hc Hd]; subst; [auto|]. destruct (H' c Hc) as (sc & C). apply (cl_bind _ _ C); auto.
  - intros s F. inversion F as [y0 Q|y0 k c sc Hc Hs Hf Hn]; subst; [change (ysym y = Some s) in Q; congruence|].
    destruct (cl_free _ _ (H k c sc Hc Hs) s Hf) as [Q|Q]; [auto|tauto].
  - intros a D. inversion D as [|d0 c y0 Hc Hd]; subst; [exfalso; eapply K; eauto|]. destruct (H' c Hc) as (sc & C). apply (cl_const _ _ C). auto.
Qed.

Ltac node := apply clean_node; [reflexivity|reflexivity|discriminate|];
  let c := fresh "c" in let Hc := fresh "Hc" in intros c Hc; simpl in Hc;
  repeat match type of Hc with
  | _ \/ _ => destruct Hc as [Hc|Hc]; [subst c|]
  | False => destruct Hc
  end.

Lemma somes_put_at n q (y : yarr) c : In c (somes (put_at n q y)) -> c = y.
Proof.
  unfold put_at.
  assert (R : forall k l, somes (repeat (@None yarr) k ++ l) = somes l) by (induction k; simpl; auto).
  rewrite R. simpl. assert (R' : forall k, somes (repeat (@None yarr) k) = []) by (induction k; simpl; auto). rewrite R'. simpl. intuition.
Qed.

Section Helpers.
Variable V : sym -> Prop.
Notation ok := (clean V).

Lemma cl_bin o a b : ok a -> ok b -> ok (ybin o a b).
Proof. intros A B. unfold ybin. node; auto. Qed.
Lemma cl_repeats reps l : (forall i s, assoc i reps = Some s -> ok s) -> forall y, ok y -> ok (add_repeats reps l y).
Proof.
  intros R. induction l as [|[i x] l IH]; intros y Y; cbn [add_repeats]; auto. apply IH.
  destruct (assoc x reps) eqn:A; auto. node; eauto.
Qed.
Lemma cl_align y axes into pad reps z : (forall i s, assoc i reps = Some s -> ok s) -> ok y -> align y axes into pad reps = Ok z -> ok z.
Proof.
  intros R Y H. unfold align in H. peel H. injection H as <-. apply cl_repeats; auto. node. node. auto.
Qed.
Lemma cl_tuple l : (forall y, In y l -> ok y) -> ok (YTuple l).
Proof. intros H. node. auto. Qed.
Lemma cl_tms l : (forall y, In y l -> ok y) -> ok (tuple_maybe_singleton l).
Proof. intros H. destruct l as [|y [|z l]]; [apply cl_tuple; auto|apply H; simpl; auto|apply cl_tuple; auto]. Qed.
Lemma cl_untuple k y i : ok y -> ok (untuple_maybe_singleton k y i).
Proof. intros H. unfold untuple_maybe_singleton. destruct (k =? 1); auto. node. auto. Qed.
Lemma cl_aligned a into pad reps z : (forall i s, assoc i reps = Some s -> ok s) -> ok (ax_expr a) -> aligned a into pad reps = Ok z -> ok z.
Proof.
  intros R Y H. unfold aligned in H. apply bind_ok in H as (q & _ & H). cbv zeta in H. destruct (length q =? 1).
  - eapply cl_align; eauto.
  - apply bind_ok in H as (l & Hl & H). injection H as <-. apply cl_tuple. intros y Hy.
    destruct (mapM_In _ _ _ _ Hl Hy) as (k & _ & Q). eapply cl_align; [exact R| |exact Q]. node. auto.
Qed.
Lemma no_reps : forall i s, assoc i ([] : list (nat * yarr)) = Some s -> ok s.
Proof. discriminate. Qed.
Lemma cl_along a i s b : ok (ax_expr a) -> ok s -> along a i s = Ok b -> ok (ax_expr b).
Proof.
  intros A S H. unfold along in H. peel H. destruct (index_of i (ax_axes a)); apply mk_axial_inv in H as (-> & _); cbn [ax_expr].
  - node. auto.
  - node; auto. node. auto.
Qed.
Lemma cl_cons a b c : ok (ax_expr a) -> ok (ax_expr b) -> cons_axial a b = Ok c -> ok (ax_expr c).
Proof.
  intros A B H. unfold cons_axial in H. apply bind_ok in H as (q & _ & H). apply bind_ok in H as (q' & _ & H). cbv zeta in H.
  apply bind_ok in H as (x & Hx & H). apply bind_ok in H as (y & Hy & H). apply mk_axial_inv in H as (-> & _). cbn [ax_expr].
  apply cl_aligned in Hx; [|apply no_reps|auto]. apply cl_aligned in Hy; [|apply no_reps|auto].
  apply cl_tms. intros z Hz. apply in_app_or in Hz as [Hz|Hz]; apply in_map_iff in Hz as (k & <- & _); apply cl_untuple; auto.
Qed.
Lemma cl_slice a i j c : ok (ax_expr a) -> slice_tuple a i j = Ok c -> ok (ax_expr c).
Proof.
  intros A H. unfold slice_tuple in H. peel H. apply mk_axial_inv in H as (-> & _). cbn [ax_expr].
  apply cl_tms. intros z Hz. apply in_map_iff in Hz as (k & <- & _); apply cl_untuple; auto.
Qed.
Lemma cl_general t i c : ok (ax_expr t) -> ok (ax_expr i) -> general_get t i = Ok c -> ok (ax_expr c).
Proof.
  intros A B H. unfold general_get in H. cbv zeta in H. apply bind_ok in H as (q & _ & H).
  apply bind_ok in H as (x & Hx & H). apply bind_ok in H as (y & Hy & H). apply mk_axial_inv in H as (-> & _). cbn [ax_expr].
  apply cl_aligned in Hx; [|apply no_reps|auto]. apply cl_aligned in Hy; [|apply no_reps|auto].
  node. node; auto. node. auto.
Qed.
Lemma cl_pad_slice t ax sh lo hi sz y : ok t -> ok sh -> ok lo -> ok hi -> ok sz -> pad_slice_get t ax sh lo hi sz = Ok y -> ok y.
Proof.
  intros T SH LO HI SZ H. unfold pad_slice_get in H. peel H. injection H as <-.
  apply clean_node; [reflexivity|reflexivity|discriminate|]. intros c Hc. cbn [ysubs] in Hc. destruct Hc as [<-|Hc].
  - apply clean_node; [reflexivity|reflexivity|discriminate|]. intros c Hc. cbn [ysubs] in Hc. destruct Hc as [<-|Hc]; auto.
    apply in_app_or in Hc as [Hc|Hc]; apply somes_put_at in Hc; subst c; repeat apply cl_bin; auto using clean_int.
  - apply in_app_or in Hc as [Hc|Hc]; apply somes_put_at in Hc; subst c; repeat apply cl_bin; auto using clean_int.
Qed.
End Helpers.

Lemma normal_inv a s : normal a = Ok s -> s = ax_expr a.
Proof. unfold normal. destruct (ax_axes a); congruence. Qed.

Lemma go_clean fuel : forall e S idxs vax a, ctx S idxs vax e -> weight e <= fuel -> go fuel idxs vax e = Ok a ->
  (forall i s, assoc i idxs = Some s -> clean S s) -> clean S (ax_expr a).
Proof.
  induction fuel as [|fuel IH]; intros e S idxs vax a CX W H HI; [discriminate|].
  pose proof (ctx_cok _ _ _ _ CX) as CK. pose proof (c_vis _ _ _ _ _ _ _ CK) as V.
  assert (H0 := H).
  assert (MK : forall ax y, mk_axial ax y = Ok a -> clean S y -> clean S (ax_expr a)).
  { intros ax y Q K. apply mk_axial_inv in Q as (-> & _). auto. }
  assert (KW : forall sc c, In (sc, c) (kids e) -> weight c <= fuel).
  { intros sc c Hk. pose proof (kid_weight fl orc p TD _ _ _ V Hk). lia. }
  assert (ST : forall sc c i' v' b, step e idxs vax sc c i' v' -> go fuel i' v' c = Ok b ->
     (forall i s, assoc i i' = Some s -> clean (more S sc) s) -> clean (more S sc) (ax_expr b)).
  { intros sc c i' v' b Hs Hb Hi. eapply IH; [eapply ctx_step; eauto| |exact Hb|exact Hi]. eapply KW. eapply step_kid; eauto. }
  assert (HM : forall sc i s, assoc i idxs = Some s -> clean (more S sc) s).
  { intros sc i s Hs. eapply clean_mono; [|eapply HI; eauto]. left. auto. }
  assert (K0 : forall c b, In ([], c) (kids e) -> go fuel idxs vax c = Ok b -> clean S (ax_expr b)).
  { intros c b Hk Hb. eapply (clean_mono (more S [])); [intros s [Q|[]]; auto|]. eapply ST; [constructor; eauto|exact Hb|apply HM]. }
  assert (AL : forall x into pad z, clean S (ax_expr x) -> aligned x into pad [] = Ok z -> clean S z).
  { intros x into pad z Hx Hz. eapply cl_aligned; [apply no_reps|exact Hx|exact Hz]. }
  destruct e; cbn [Codegen.go] in H.
  - eapply MK; [eassumption|]. apply clean_const. right. apply (vis_consts _ V). simpl. auto.
  - destruct s as [x|j].
    + apply bind_ok in H as (q & _ & H). eapply MK; [eassumption|]. apply clean_var. eapply c_free; eauto. reflexivity.
    + apply bind_ok in H as (q & Hq & H). eapply MK; [eassumption|]. node. destruct (assoc j idxs) eqn:A; [|discriminate]. injection Hq as <-. eauto.
  - (* Let *)
    apply bind_ok in H as (b & Hb & H). apply bind_ok in H as (q & Hq & H). unfold within in H. eapply MK; [eassumption|].
    assert (B : clean S (ax_expr b)) by (eapply K0; [left; reflexivity|eauto]).
    assert (Q : clean (more S [SV x]) (ax_expr q)).
    { eapply ST; [eapply st_let; [|exact Hb]|exact Hq|apply HM]. eapply KW. left. reflexivity. }
    apply clean_binder; [|reflexivity|discriminate|].
    + exists S, idxs, vax, (PLet x e1 e2), (Datatypes.S fuel), a. split; [exact CX|]. split; [exact W|]. split; [exact H0|]. apply mk_axial_inv in H as (-> & _).
      split; [reflexivity|]. split; [reflexivity|]. intros s [<-|[]]. unfold CodegenLocal.binds_here. simpl. auto.
    + intros [|[|k]] c sc Hc Hs; simpl in Hc, Hs; [| |destruct k; discriminate]; injection Hc as <-; injection Hs as <-; auto.
      eapply clean_mono; [|exact B]. left. auto.
  - eapply K0; eauto. left; auto.
  - apply bind_ok in H as (b & Hb & H). apply bind_ok in H as (q & _ & H). eapply MK; [eassumption|]. node. eapply K0; eauto. left; auto.
  - (* Get *)
    unfold transform_get in H. apply bind_ok in H as (t & Ht & H). apply bind_ok in H as (rk & _ & H).
    assert (B1 : clean S (ax_expr t)) by (eapply K0; [left; reflexivity|eauto]).
    assert (OTH : others fl (go fuel idxs vax) t rk e2 = Ok a -> clean S (ax_expr a)).
    { unfold others. intros K. apply bind_ok in K as (i & Hi & K).
      assert (B2 : clean S (ax_expr i)) by (eapply K0; [right; left; reflexivity|eauto]).
      destruct (_ && _).
      - apply bind_ok in K as (q & _ & K). eapply MK; [eassumption|].
        apply clean_node; [reflexivity|reflexivity|discriminate|]. intros c Hc. cbn [ysubs] in Hc. destruct Hc as [<-|Hc]; auto.
        apply somes_put_at in Hc. subst c. auto.
      - eapply cl_general; [| |exact K]; auto. }
    change (let* item := go fuel idxs vax e2 in _) with (others fl (go fuel idxs vax) t rk e2) in H.
    destruct (use_slice_pads fl); [|auto].
    destruct (match_index_clipped_shift e2) as [[ix [[sh lo] hi]]|] eqn:M; [|auto].
    destruct (smem _ _); [auto|].
    destruct (_ && _); [eapply MK; [eassumption|]; auto|].
    cbv zeta in H. apply bind_ok in H as (size & Hsize & H). apply bind_ok in H as (d & Hd & H). apply bind_ok in H as (d' & Hd' & H).
    apply bind_ok in H as (ps & _ & H). apply bind_ok in H as (sh' & Hsh & H). apply bind_ok in H as (lo' & Hlo & H).
    apply bind_ok in H as (hi' & Hhi & H). apply bind_ok in H as (y & Hy & H). eapply MK; [eassumption|].
    assert (BD : clean S d') by (apply normal_inv in Hd'; subst d'; eapply K0; [right; right; left; reflexivity|eauto]).
    assert (P : forall o dflt z, In o [sh; lo; hi] -> clean S dflt ->
      match o with Some e => let* a := go fuel idxs vax e in normal a | None => Ok dflt end = Ok z -> clean S z).
    { intros [q|] dflt z Ho Hdf Hz; [|injection Hz as <-; auto]. apply bind_ok in Hz as (u & Hu & Hz). apply normal_inv in Hz. subst z.
      eapply K0; [|exact Hu]. right. right. right. apply in_map. unfold shift_parts. rewrite M. simpl in Ho. rewrite !in_app_iff.
      destruct Ho as [->|[->|[->|[]]]]; simpl; auto. }
    destruct (assoc ix idxs) eqn:A; [|discriminate]. injection Hsize as <-.
    eapply cl_pad_slice; [exact B1| | | | |exact Hy].
    + eapply P; [|apply (clean_int S 0)|exact Hsh]. simpl. auto.
    + eapply P; [|apply (clean_int S 0)|exact Hlo]. simpl. auto.
    + eapply P; [|apply (cl_bin S BSub d' (yint 1)); auto using clean_int|exact Hhi]. simpl. auto.
    + eauto.
  - apply bind_ok in H as (x & Hx & H). apply bind_ok in H as (y & Hy & H). apply bind_ok in H as (u & _ & H).
    eapply cl_cons; [| |exact H]; eapply K0; eauto; simpl; auto.
  - apply bind_ok in H as (ty & _ & H). destruct ty; try discriminate. apply bind_ok in H as (q & _ & H).
    apply bind_ok in H as (x & Hx & H). eapply cl_slice; [|exact H]. eapply K0; eauto; simpl; auto.
  - apply bind_ok in H as (ty & _ & H). destruct ty; try discriminate. apply bind_ok in H as (q & _ & H). apply bind_ok in H as (q' & _ & H).
    apply bind_ok in H as (x & Hx & H). eapply cl_slice; [|exact H]. eapply K0; eauto; simpl; auto.
  - (* Vec *)
    apply bind_ok in H as (s & Hs & H). apply bind_ok in H as (s' & Hs' & H). apply bind_ok in H as (b & Hb & H).
    assert (B1 : clean S s') by (pose proof (normal_inv _ _ Hs') as ->; eapply K0; [left; reflexivity|eauto]).
    assert (Q : clean (more S [SX i]) (ax_expr b)).
    { eapply ST; [eapply st_vec; [|exact Hs|exact Hs']|exact Hb|].
      - eapply KW. left. reflexivity.
      - intros j z. cbn [assoc]. destruct (_ =? _); [|apply HM]. intros Q. injection Q as <-. eapply clean_mono; [|exact B1]. left. auto. }
    assert (Q' : clean S (ax_expr b)).
    { destruct Q as [Q1 Q2 Q3]. split; auto. intros z Hz. destruct (Q2 z Hz) as [K|[K|[]]]; auto. subst z. exfalso.
      clear - Hz. remember (SX i) as z. induction Hz as [t Ht|]; auto. subst. destruct t; discriminate. }
    eapply cl_along; [exact Q'|exact B1|exact H].
  - (* Fold *)
    rewrite (no_einsum_fold fl orc _ _ _ _ (t_ein _ _ _ TD _ _ _ _ _ V)) in H. cbn [bind] in H.
    apply bind_ok in H as (red & HR & H). destruct red as [ar|].
    { injection H as <-. destruct (use_reductions fl) eqn:UR; [|discriminate]. unfold match_reduction in HR.
      apply bind_ok in HR as (ti & TI & HR).
      destruct (negb (ty_eqb ti (TScalar KFloat)) || _) eqn:Q1; [discriminate|].
      destruct (match_reduction_by_body e3 acc) as [[elem r]|] eqn:M; [|discriminate]. destruct (negb (considerate _ _ _ _ _)) eqn:Q2; [discriminate|].
      assert (R : reduces fl orc c e1 acc e2 e3 = Some (elem, r)) by (unfold reduces; rewrite UR, TI, Q1, M, Q2; auto).
      destruct (t_red _ _ _ TD _ _ _ _ _ _ _ V R) as (N1 & N2 & N3).
      apply bind_ok in HR as (u1 & G1 & HR). apply guard_ok in G1.
      apply bind_ok in HR as (u2 & _ & HR). apply bind_ok in HR as (v & Hv & HR).
      apply bind_ok in HR as (q & _ & HR). apply bind_ok in HR as (i & Hi & HR). apply bind_ok in HR as (i' & Hi' & HR).
      apply bind_ok in HR as (a' & Ha & HR). injection HR as <-.
      assert (NA : smem (SV acc) (fsyms elem) = false).
      { destruct (smem (SV acc) (fsyms elem)) eqn:SA; auto. destruct N3 as [N3|N3]; [rewrite N3 in G1; discriminate|].
        apply smem_In in SA. tauto. }
      rewrite (name_fold fl orc p TD _ _ _ _ _ _ _ _ _ _ CK R NA) in Hv.
      apply normal_inv in Hi'. subst i'.
      eapply MK; [exact Ha|]. apply cl_bin; [eapply K0; [|exact Hi]|node; eapply K0; [|exact Hv]]; cbn [CodegenLocal.kids]; rewrite R, NA; simpl; auto. }
    assert (RN : reduces fl orc c e1 acc e2 e3 = None).
    { unfold reduces. destruct (use_reductions fl) eqn:UR; auto. unfold match_reduction in HR.
      apply bind_ok in HR as (ti & TI & HR). rewrite TI.
      destruct (negb (ty_eqb ti (TScalar KFloat)) || _) eqn:Q1; auto.
      destruct (match_reduction_by_body e3 acc) as [[elem r]|] eqn:M; auto. destruct (negb (considerate _ _ _ _ _)) eqn:Q2; auto.
      peel HR. discriminate. }
    assert (KS : forall k, In k [([], e1); ([], e2); ([SV c; SV acc], e3)] -> In k (kids (PFold c e1 acc e2 e3))).
    { intros k Hk. cbn [CodegenLocal.kids]. rewrite RN. exact Hk. }
    apply bind_ok in H as (s & Hs & H). apply bind_ok in H as (s' & Hs' & H). apply bind_ok in H as (i & Hi & H).
    apply bind_ok in H as (b0 & Hb0 & H). cbv zeta in H. apply bind_ok in H as (b & Hb & H). apply bind_ok in H as (u & _ & H).
    apply bind_ok in H as (yi & Hyi & H). apply bind_ok in H as (yb & Hyb & H). eapply MK; [eassumption|].
    assert (B1 : clean S s') by (pose proof (normal_inv _ _ Hs') as ->; eapply K0; [apply KS; left; reflexivity|exact Hs]).
    assert (B2 : clean S yi) by (eapply cl_aligned; [exact HI| |exact Hyi]; eapply K0; [apply KS; right; left; reflexivity|exact Hi]).
    assert (B3 : clean (more S [SV c; SV acc]) yb).
    { eapply cl_aligned; [apply no_reps| |exact Hyb]. eapply ST; [eapply st_fold; [exact RN| | |exact Hi|exact Hb0]|exact Hb|apply HM].
      - eapply KW. apply KS. right. left. reflexivity.
      - eapply KW. apply KS. right. right. left. reflexivity. }
    apply clean_binder; [|reflexivity|discriminate|].
    + exists S, idxs, vax, (PFold c e1 acc e2 e3), (Datatypes.S fuel), a. split; [exact CX|]. split; [exact W|]. split; [exact H0|]. apply mk_axial_inv in H as (-> & _).
      split; [reflexivity|]. split; [reflexivity|]. intros z Hz. unfold CodegenLocal.binds_here. cbn [CodegenLocal.kids]. rewrite RN. simpl in Hz |- *. tauto.
    + intros [|[|[|k]]] q sc Hc Hsc; simpl in Hc, Hsc; [| | |destruct k; discriminate]; injection Hc as <-; injection Hsc as <-.
      * eapply clean_mono; [|exact B1]. left. auto.
      * eapply clean_mono; [|exact B2]. left. auto.
      * eapply clean_mono; [|exact B3]. intros z [Q|Q]; [left; auto|right]. simpl in Q |- *. tauto.
  - (* Reduce *)
    apply bind_ok in H as (i & Hi & H). apply bind_ok in H as (vs & Hvs & H). cbv zeta in H. apply bind_ok in H as (b0 & Hb0 & H).
    apply bind_ok in H as (b & Hb & H). apply bind_ok in H as (u & _ & H).
    apply bind_ok in H as (yi & Hyi & H). apply bind_ok in H as (ys & Hys & H). eapply MK; [eassumption|].
    set (e := PReduce e1 x y e2 vecs) in *.
    assert (NR : new_index orc idxs ((x, ax_axes b0) :: vax) e = name_of orc e).
    { eapply (name_reduce fl orc p TD S); [exact CK|]. eapply (reduce_axes0 S idxs vax e1 x y e2 vecs fuel i vs b0); eauto. }
    rewrite NR in *.
    assert (BV : forall v, In v vs -> clean S (ax_expr v)).
    { intros v Hv. destruct (mapM_In _ _ _ _ Hvs Hv) as (o & Ho & Hgo). eapply K0; [|exact Hgo]. right. right. apply in_map. auto. }
    assert (B1 : clean S yi) by (eapply cl_aligned; [exact HI| |exact Hyi]; eapply K0; [left; reflexivity|eauto]).
    assert (B2 : clean S (match ys with [y] => y | _ => YTuple ys end)).
    { assert (Y : forall z, In z ys -> clean S z).
      { intros z Hz. destruct (mapM_In _ _ _ _ Hys Hz) as (v & Hv & Q). eapply cl_aligned; [exact HI| |exact Q]. auto. }
      exact (cl_tms S ys Y). }
    assert (B3 : clean (more S [SV x; SV y]) (ax_expr b)).
    { assert (Q : clean (more S [SV x; SV y; SX (name_of orc e)]) (ax_expr b)).
      { eapply ST; [eapply st_reduce; [exact W|exact Hi|exact Hvs|exact Hb0]|exact Hb|apply HM]. }
      destruct Q as [Q1 Q2 Q3]. split; auto. intros z Hz. destruct (Q2 z Hz) as [K|[K|[K|[K|[]]]]]; [left; auto|right; simpl; auto..|].
      subst z. exfalso. clear - Hz. remember (SX (name_of orc e)) as z. induction Hz as [t Ht|]; auto. subst. destruct t; discriminate. }
    apply clean_binder; [|reflexivity|discriminate|].
    + exists S, idxs, vax, e, (Datatypes.S fuel), a. split; [exact CX|]. split; [exact W|]. split; [exact H0|]. apply mk_axial_inv in H as (-> & _).
      split; [reflexivity|]. split; [reflexivity|]. intros z Hz. unfold CodegenLocal.binds_here, e. simpl in Hz |- *. tauto.
    + intros [|[|[|k]]] q sc Hc Hsc; simpl in Hc, Hsc; [| | |destruct k; discriminate]; injection Hc as <-; injection Hsc as <-.
      * eapply clean_mono; [|exact B1]. left. auto.
      * exact B3.
      * eapply clean_mono; [|exact B2]. left. auto.
  - assert (B : forall x, go fuel idxs vax e = Ok x -> clean S (ax_expr x)) by (intros x Hx; eapply K0; eauto; simpl; auto).
    destruct o; apply bind_ok in H as (x & Hx & H); apply B in Hx.
    all: try (apply bind_ok in H as (x' & Hx' & H); eapply MK; [exact H|]; node; eapply AL; [exact Hx|exact Hx']).
    eapply MK; [exact H|]. node. auto.
  - apply bind_ok in H as (x & Hx & H). apply bind_ok in H as (y & Hy & H). cbv zeta in H.
    apply bind_ok in H as (x' & Hx' & H). apply bind_ok in H as (y' & Hy' & H). eapply MK; [exact H|].
    node; (eapply AL; [|eauto]); eapply K0; eauto; simpl; auto.
  - apply bind_ok in H as (z & Hz & H). apply bind_ok in H as (x & Hx & H). apply bind_ok in H as (y & Hy & H). cbv zeta in H.
    apply bind_ok in H as (z' & Hz' & H). apply bind_ok in H as (x' & Hx' & H). apply bind_ok in H as (y' & Hy' & H). eapply MK; [exact H|].
    node; (eapply AL; [|eauto]); eapply K0; eauto; simpl; auto.
  - apply bind_ok in H as (x & Hx & H). apply bind_ok in H as (y & Hy & H). cbv zeta in H. apply bind_ok in H as (u & _ & H).
    apply bind_ok in H as (x' & Hx' & H). apply bind_ok in H as (y' & Hy' & H). eapply MK; [exact H|].
    node; (eapply cl_aligned; [exact HI| |eauto]); eapply K0; eauto; simpl; auto.
  - apply bind_ok in H as (xs & Hxs & H). cbv zeta in H. apply bind_ok in H as (u & _ & H). apply bind_ok in H as (ys & Hys & H).
    apply bind_ok in H as (q & _ & H). eapply MK; [exact H|]. node.
    destruct (mapM_In _ _ _ _ Hys Hc) as (v & Hv & Q). eapply AL; [|exact Q].
    destruct (mapM_In _ _ _ _ Hxs Hv) as (o & Ho & Hgo). eapply K0; [|exact Hgo]. simpl. apply in_map. auto.
Qed.

Theorem lower_clean fuel y : weight p <= fuel -> lower fl orc fuel p = Ok y -> clean (fun s => free_in s p) y.
Proof.
  intros W H. unfold lower in H. apply bind_ok in H as (a & Ha & H). apply normal_inv in H. subst y.
  eapply go_clean; [apply ctx_root|exact W|exact Ha|discriminate].
Qed.

Lemma genuine_once d d' s : genuine d -> genuine d' -> In s (ycapt d) -> In s (ycapt d') -> d = d'.
Proof.
  intros (S1 & i1 & v1 & n1 & f1 & a1 & C1 & W1 & G1 & -> & _ & B1) (S2 & i2 & v2 & n2 & f2 & a2 & C2 & W2 & G2 & -> & _ & B2) H1 H2.
  assert (n2 = n1).
  { eapply (t_once _ _ _ TD); [apply (c_vis _ _ _ _ _ _ _ (ctx_cok _ _ _ _ C2))|apply (c_vis _ _ _ _ _ _ _ (ctx_cok _ _ _ _ C1))|eauto..]. }
  subst n2. f_equal. eapply (same_code S1 S2 i1 v1 i2 v2 n1 f1 f2); eauto.
Qed.

Theorem lower_distinct fuel y : weight p <= fuel -> lower fl orc fuel p = Ok y -> distinct_binders y.
Proof.
  intros W H. pose proof (lower_clean _ _ W H) as [A B _]. intros d s Hd Hs.
  assert (N : forall n, In s (capt n) -> ycapt n <> []) by (intros n Hn Q; change (In s (ycapt n)) in Hn; rewrite Q in Hn; destruct Hn).
  split.
  - intros F. apply B in F. destruct (A d Hd (N d Hs)) as (S1 & i1 & v1 & n1 & f1 & a1 & C1 & W1 & G1 & _ & Q1 & B1).
    eapply (t_free _ _ _ TD n1 s); eauto. apply (c_vis _ _ _ _ _ _ _ (ctx_cok _ _ _ _ C1)).
  - intros d' Hd' Hs'. eapply (genuine_once d' d s); eauto.
Qed.

(** The symbols the code binds are bound by terms of the program. *)
Theorem lower_binders fuel y d s : weight p <= fuel -> lower fl orc fuel p = Ok y -> sub_of d y -> In s (ycapt d) ->
  exists n, vis n /\ In s (binds_here n) /\ ycapt d = captured n.
Proof.
  intros W H Hd Hs. pose proof (lower_clean _ _ W H) as [A _ _].
  assert (N : ycapt d <> []) by (intros Q; rewrite Q in Hs; destruct Hs).
  destruct (A d Hd N) as (S1 & i1 & v1 & n1 & f1 & a1 & C1 & W1 & G1 & _ & Q1 & B1). exists n1. split; [|auto].
  apply (c_vis _ _ _ _ _ _ _ (ctx_cok _ _ _ _ C1)).
Qed.

Theorem lower_free fuel y s : weight p <= fuel -> lower fl orc fuel p = Ok y -> isfree s y -> free_in s p.
Proof. intros W H. apply (cl_free _ _ (lower_clean _ _ W H)). Qed.

Theorem lower_sources fuel y a : weight p <= fuel -> lower fl orc fuel p = Ok y ->
  sub_of (YConst a) y -> sub_of (PConst a) p \/ exists z, a = ascalar (SI z).
Proof.
  intros W H Ha. destruct (cl_const _ _ (lower_clean _ _ W H) a Ha) as [(z & ->)|Q]; [eauto|]. left. apply pconsts_sub. auto.
Qed.

Theorem lower_consts fuel y a : weight p <= fuel -> lower fl orc fuel p = Ok y ->
  (forall b, sub_of (PConst b) p -> arr_wf b) -> sub_of (YConst a) y -> arr_wf a.
Proof.
  intros W H K Ha. destruct (cl_const _ _ (lower_clean _ _ W H) a Ha) as [(z & ->)|Q]; [apply ascalar_wf|]. apply K, pconsts_sub. auto.
Qed.

End Binders.
