(** Reductions in the translation to array code: phi_to_yarr.py:192-224 with the
    pairwise evaluation of array_backend.py:104-155. *)
From Verif Require Import Base Scalar Tensor Types Sym Phi Den Term PhiTerm DenFree SpecPhi Lining TypesFacts Typing DenWf Naive
  Sizes ClipShift NdOps NdFacts Yarr Axial AxialFacts AxialOps Codegen IndexOps YOps CodegenSafe CodegenGet CodegenCtx CodegenCases
  CodegenAxes CodegenCorrect CodegenSub CodegenRed ReduceOps.
From Verif Require TreeReduce.

(** * The pairwise evaluation *)
Section Sim.
Context {FO : FloatOps} {EX : Externs} {PO : PadOps}.
Variable N : nat -> nat.
Variable I : list nat.
Variable ax : list nat.
Variable f : asg -> val -> val -> val.
Variable M : asg -> val -> Prop.
Variable get_ : list arr -> list arr -> res (list arr).
Notation vbrep := (vbrep N I ax).

Definition local (V : asg -> nat -> val) : Prop := forall s s' j, (forall i, In i I -> s i = s' i) -> V s j = V s' j.
Definition fam (m : nat) (V : asg -> nat -> val) : Prop := local V /\ forall s j, wv N I s -> j < m -> M s (V s j).

Hypothesis Mf : forall s a b, wv N I s -> M s a -> M s b -> M s (f s a b).
Hypothesis f_assoc : forall s a b c, wv N I s -> M s a -> M s b -> M s c -> f s a (f s b c) = f s (f s a b) c.
Hypothesis f_loc : forall s s', (forall i, In i I -> s i = s' i) -> f s = f s'.
Hypothesis GET : forall m p q V1 V2, 1 <= m -> vbrep m p V1 -> vbrep m q V2 -> fam m V1 -> fam m V2 ->
  exists l, get_ p q = Ok l /\ vbrep m l (fun s j => f s (V1 s j) (V2 s j)).

Lemma pairs_up_seq (h : val -> val -> val) (g : nat -> val) n : forall a,
  TreeReduce.pairs_up h (map g (seq a n)) = map (fun j => h (g (a + 2 * j)) (g (a + (2 * j + 1)))) (seq 0 (n / 2)).
Proof.
  assert (P : forall n a, TreeReduce.pairs_up h (map g (seq a n)) = map (fun j => h (g (a + 2 * j)) (g (a + (2 * j + 1)))) (seq 0 (n / 2))
     /\ TreeReduce.pairs_up h (map g (seq a (S n))) = map (fun j => h (g (a + 2 * j)) (g (a + (2 * j + 1)))) (seq 0 (S n / 2))).
  { clear. induction n as [|n IH]; intros a; [split; reflexivity|]. split; [apply IH|].
    destruct (IH (S (S a))) as [Q _]. cbn [seq map TreeReduce.pairs_up]. rewrite Q.
    replace (S (S n) / 2) with (S (n / 2)).
    - cbn [seq map]. f_equal; [f_equal; f_equal; lia|]. rewrite <- seq_shift, map_map. apply map_ext. intros j. f_equal; f_equal; lia.
    - replace (S (S n)) with (n + 1 * 2) by lia. rewrite Nat.div_add by lia. lia. }
  intros a. apply P.
Qed.

Lemma fam_fold n V W : fam n V -> fam 1 W -> fam 1 (fun s _ => fold_right (f s) (W s 0) (map (V s) (seq 0 n))).
Proof.
  intros [L1 M1] [L2 M2]. split.
  - intros s s' j H. rewrite (f_loc s s' H), (L2 s s' 0 H). f_equal. apply map_ext. intros k. apply L1; auto.
  - intros s j Hs Hj. assert (Q : forall l, (forall k, In k l -> k < n) -> M s (fold_right (f s) (W s 0) (map (V s) l))).
    { induction l as [|k l IH]; intros Hl; simpl; [apply M2; auto|]. apply Mf; auto; [apply M1; auto; apply Hl; left; auto|].
      apply IH. intros; apply Hl; right; auto. }
    apply Q. intros k Hk. apply in_seq in Hk. lia.
Qed.

Lemma tree_sim fuel : forall n vals acc V W, n < fuel -> vbrep n vals V -> fam n V -> vbrep 1 acc W -> fam 1 W ->
  exists acc', tree_loop get_ (length ax) fuel n vals acc = Ok acc' /\
    vbrep 1 acc' (fun s _ => fold_right (f s) (W s 0) (map (V s) (seq 0 n))).
Proof.
  induction fuel as [|fuel IH]; intros n vals acc V W Hf BV FV BW FW; [lia|]. cbn [tree_loop].
  destruct (1 <? n) eqn:N1.
  - apply Nat.ltb_lt in N1.
    assert (H2 : 1 <= n / 2) by (apply Nat.div_le_lower_bound; lia).
    assert (HD : n / 2 < fuel) by (assert (n / 2 < n) by (apply Nat.div_lt; lia); lia).
    assert (DM : n = 2 * (n / 2) + n mod 2) by (apply Nat.div_mod; lia).
    assert (DB : n mod 2 < 2) by (apply Nat.mod_upper_bound; lia).
    (* the odd element *)
    set (W' := fun s (j : nat) => if Nat.odd n then f s (V s (n - 1)) (W s 0) else W s 0).
    assert (FW' : fam 1 W').
    { destruct FV as [L1 M1], FW as [L2 M2]. unfold W'. split.
      - intros s s' j H. rewrite (f_loc s s' H), (L1 s s' _ H), (L2 s s' 0 H). auto.
      - intros s j Hs Hj. destruct (Nat.odd n); auto. apply Mf; auto. apply M1; auto. lia. }
    assert (A : exists acc1, (if Nat.odd n then let* l := mapM (pick (length ax) (fun d => [d - 1])) vals in get_ l acc else Ok acc) = Ok acc1
       /\ vbrep 1 acc1 W').
    { unfold W'. destruct (Nat.odd n).
      - destruct (vbrep_pick N I ax n vals V (fun d => [d - 1]) [n - 1] BV eq_refl) as (l & HL & LL & BL).
        { intros j [<-|[]]. lia. }
        rewrite HL. cbn [bind length] in *.
        destruct (GET 1 l acc _ W (le_n 1) BL BW) as (l1 & HG & BG); auto.
        { destruct FV as [L1 M1]. split; [intros s s' j H; apply L1; auto|]. intros s j Hs Hj. apply M1; auto.
          destruct j as [|j]; [simpl; lia|lia]. }
        exists l1. split; auto. eapply vbrep_ext; [|exact BG]. intros s j Hs Hj. assert (j = 0) by lia. subst. reflexivity.
      - exists acc. split; auto. eapply vbrep_ext; [|exact BW]. intros s j Hs Hj. assert (j = 0) by lia. subst. reflexivity. }
    destruct A as (acc1 & -> & BA). cbn [bind].
    (* the pairs *)
    set (V' := fun s j => f s (V s (2 * j)) (V s (2 * j + 1))).
    assert (LE : length (evens n) = n / 2) by (rewrite evens_eq, map_length, seq_length; auto).
    assert (LO : length (odds n) = n / 2) by (rewrite odds_eq, map_length, seq_length; auto).
    assert (NE : forall j, j < n / 2 -> nth j (evens n) 0 = 2 * j).
    { intros j Hj. rewrite evens_eq. rewrite (nth_indep _ 0 (2 * 0)) by (rewrite map_length, seq_length; auto).
      rewrite (map_nth (fun j => 2 * j)). rewrite seq_nth; auto. }
    assert (NO : forall j, j < n / 2 -> nth j (odds n) 0 = 2 * j + 1).
    { intros j Hj. rewrite odds_eq. rewrite (nth_indep _ 0 (2 * 0 + 1)) by (rewrite map_length, seq_length; auto).
      rewrite (map_nth (fun j => 2 * j + 1)). rewrite seq_nth; auto. }
    destruct (vbrep_pick N I ax n vals V evens (evens n) BV eq_refl) as (p & HP & _ & BP).
    { intros j Hj. rewrite evens_eq in Hj. apply in_map_iff in Hj as (k & <- & Hk). apply in_seq in Hk. lia. }
    destruct (vbrep_pick N I ax n vals V odds (odds n) BV eq_refl) as (q & HQ & _ & BQ).
    { intros j Hj. rewrite odds_eq in Hj. apply in_map_iff in Hj as (k & <- & Hk). apply in_seq in Hk. lia. }
    rewrite HP, HQ. cbn [bind]. rewrite LE in BP. rewrite LO in BQ.
    assert (FE : fam (n / 2) (fun s j => V s (nth j (evens n) 0))).
    { destruct FV as [L1 M1]. split; [intros s s' j H; apply L1; auto|]. intros s j Hs Hj. apply M1; auto. rewrite NE; auto; lia. }
    assert (FO' : fam (n / 2) (fun s j => V s (nth j (odds n) 0))).
    { destruct FV as [L1 M1]. split; [intros s s' j H; apply L1; auto|]. intros s j Hs Hj. apply M1; auto. rewrite NO; auto; lia. }
    destruct (GET (n / 2) p q _ _ H2 BP BQ FE FO') as (vals1 & HG & BG). rewrite HG. cbn [bind].
    assert (BV' : vbrep (n / 2) vals1 V').
    { eapply vbrep_ext; [|exact BG]. intros s j Hs Hj. cbv beta. unfold V'. rewrite NE, NO; auto. }
    assert (FV' : fam (n / 2) V').
    { destruct FV as [L1 M1]. unfold V'. split.
      - intros s s' j H. rewrite (f_loc s s' H), (L1 s s' _ H), (L1 s s' (2 * j + 1) H). auto.
      - intros s j Hs Hj. apply Mf; auto; apply M1; auto; lia. }
    destruct (IH (n / 2) vals1 acc1 V' W' HD BV' FV' BA FW') as (acc2 & HT & BT).
    exists acc2. split; auto. eapply vbrep_ext; [|exact BT]. intros s j Hs _. cbv beta.
    destruct FV as [L1 M1], FW as [L2 M2].
    assert (FM : forall m, m <= n -> Forall (M s) (map (V s) (seq 0 m))).
    { intros m Hm. apply Forall_forall. intros v Hv. apply in_map_iff in Hv as (k & <- & Hk). apply in_seq in Hk. apply M1; auto. lia. }
    assert (PU : map (V' s) (seq 0 (n / 2)) = TreeReduce.pairs_up (f s) (map (V s) (seq 0 n))).
    { rewrite pairs_up_seq. reflexivity. }
    rewrite PU. unfold W'.
    pose proof (fun a b Ha Hb => conj (eq_refl (Ok (f s a b))) (Mf s a b Hs Ha Hb)) as OP.
    destruct (Nat.odd n) eqn:OD.
    + assert (En : n = S (n - 1)) by lia. assert (EV : Nat.even (n - 1) = true).
      { rewrite En in OD. rewrite Nat.odd_succ in OD. auto. }
      assert (SQ : map (V s) (seq 0 n) = map (V s) (seq 0 (n - 1)) ++ [V s (n - 1)]).
      { rewrite En at 1. rewrite seq_S, map_app. reflexivity. }
      rewrite SQ, TreeReduce.pairs_up_snoc by (rewrite map_length, seq_length; auto).
      rewrite (TreeReduce.pairs_up_fold (fun a b => Ok (f s a b)) (M s) (f s) OP (fun a b c => f_assoc s a b c Hs)); auto.
      * rewrite fold_right_app. reflexivity.
      * apply FM. lia.
      * apply Mf; auto. apply M1; auto. lia.
      * rewrite map_length, seq_length. auto.
    + rewrite (TreeReduce.pairs_up_fold (fun a b => Ok (f s a b)) (M s) (f s) OP (fun a b c => f_assoc s a b c Hs)); auto.
      * rewrite map_length, seq_length. rewrite <- Nat.negb_odd, OD. auto.
  - apply Nat.ltb_ge in N1. destruct (n =? 1) eqn:N2.
    + apply Nat.eqb_eq in N2. subst n.
      destruct (vbrep_pick N I ax 1 vals V (fun _ => [0]) [0] BV eq_refl) as (l & HL & LL & BL).
      { intros j [<-|[]]. lia. }
      rewrite HL. cbn [bind length] in *.
      destruct (GET 1 l acc _ W (le_n 1) BL BW) as (l1 & HG & BG); auto.
      { destruct FV as [L1 M1]. split; [intros s s' j H; apply L1; auto|]. intros s j Hs Hj. apply M1; auto.
        destruct j as [|j]; [simpl; lia|lia]. }
      exists l1. split; auto. eapply vbrep_ext; [|exact BG]. intros s j Hs Hj. assert (j = 0) by lia. subst. reflexivity.
    + apply Nat.eqb_neq in N2. assert (n = 0) by lia. subst n. exists acc. split; auto. eapply vbrep_ext; [|exact BW].
      intros s j Hs Hj. assert (j = 0) by lia. subst. reflexivity.
Qed.
End Sim.

(** * The context of the body *)
Section Rows.
Context {FO : FloatOps} {EX : Externs} {PO : PadOps}.

Lemma ctx_vax N I X r idxs vax vax' E G : ctx N I X r idxs vax E G ->
  (forall z, axes_of vax' z = axes_of vax z) -> incl (flat_map snd vax) (flat_map snd vax') ->
  ctx N I X r idxs vax' E G.
Proof.
  intros [C1 C2 CB C3 C4 C5 C6 C7 C8] HA HI. constructor; auto.
  - intros i Hi HG. destruct (CB i Hi HG). auto.
  - intros x Hx. rewrite HA. auto.
  - intros x Hx. rewrite HA. auto.
Qed.

Lemma ctx_batch N I X r idxs vax E G t m : ctx N I X r idxs vax E G -> ~ In t I -> assoc t idxs = None ->
  In t (flat_map snd vax) -> ctx (set_asg N t m) (t :: I) X r idxs vax E G.
Proof.
  intros [C1 C2 CB C3 C4 C5 C6 C7 C8] Ht Ha Hv.
  assert (GT : G (SX t) = None).
  { destruct (G (SX t)) eqn:Q; auto. exfalso. apply Ht. apply (in_scope_x X). apply C6. congruence. }
  assert (HN : forall j, In j I -> N j = set_asg N t m j).
  { intros j Hj. rewrite set_asg_neq; auto. intros ->. auto. }
  assert (HW : forall s, wv (set_asg N t m) (t :: I) s -> wv N I s).
  { intros s Hs. apply wv_N with (N := set_asg N t m); [intros; symmetry; auto|].
    eapply wv_sub; [|exact Hs]. apply incl_tl, incl_refl. }
  constructor; auto.
  - intros i [<-|Hi] HG; [congruence|]. rewrite <- HN by auto. auto.
  - intros s s' H. apply C2. intros i Hi. apply H. right; auto.
  - intros i [<-|Hi] HG; auto.
  - intros s i Hs [<-|Hi] HG; [congruence|]. auto.
  - intros x Hx. destruct (C4 x Hx) as (l & V & A & B & D). exists l, V. split; auto. split; auto.
    eapply vrep_N; [exact HN| |exact D]. apply incl_tl, incl_refl.
  - intros s Hs. specialize (C6 s Hs). destruct s as [x|j]; [apply in_scope_v; apply in_scope_v in C6; auto|].
    apply in_scope_x. apply in_scope_x in C6. right; auto.
  - intros s i Hi. destruct (C8 s i Hi). split; [right|]; auto.
Qed.

Lemma axes_of_end vax z t : axes_of (vax ++ [(0, []); (0, [t])]) z = axes_of vax z.
Proof.
  unfold axes_of. induction vax as [|[x ax] vax IH]; simpl; [destruct (z =? 0); auto|]. destruct (z =? x); auto.
Qed.

Lemma ctx_rows N I X r idxs vax E G t m x y ax p q V1 V2 tx :
  ctx N I X r idxs vax E G -> ~ In t I -> assoc t idxs = None -> ~ In x X -> ~ In y X -> x <> y ->
  vrep (set_asg N t m) (t :: I) (ax ++ [t]) p V1 -> vrep (set_asg N t m) (t :: I) (ax ++ [t]) q V2 ->
  (forall s s', (forall i, In i (t :: I) -> s i = s' i) -> V1 s = V1 s') ->
  (forall s s', (forall i, In i (t :: I) -> s i = s' i) -> V2 s = V2 s') ->
  (forall s, wv (set_asg N t m) (t :: I) s -> has_type (V1 s) tx) ->
  (forall s, wv (set_asg N t m) (t :: I) s -> has_type (V2 s) tx) ->
  ctx (set_asg N t m) (t :: I) (y :: x :: X) (upd (upd r (SV x) (pack p)) (SV y) (pack q)) idxs
    ((x, ax ++ [t]) :: (y, ax ++ [t]) :: vax) (fun s => red_env (E s) x y (V1 s) (V2 s))
    (upd (upd G (SV x) tx) (SV y) tx).
Proof.
  intros C Ht Ha Hx Hy NE R1 R2 L1 L2 T1 T2.
  assert (C0 : ctx N I X r idxs (vax ++ [(0, []); (0, [t])]) E G).
  { eapply ctx_vax; [exact C|intros z; apply axes_of_end|]. intros i Hi. rewrite flat_map_app. apply in_or_app. auto. }
  apply ctx_batch with (t := t) (m := m) in C0; auto.
  2:{ rewrite flat_map_app. apply in_or_app. right. simpl. auto. }
  assert (C1 := ctx_bind _ _ _ _ _ _ _ _ x _ p V1 tx C0 Hx R1 L1 T1).
  assert (Hy' : ~ In y (x :: X)) by (intros [K|K]; auto).
  assert (C2 := ctx_bind _ _ _ _ _ _ _ _ y _ q V2 tx C1 Hy' R2 L2 T2).
  eapply ctx_vax; [exact C2| |].
  - intros z. rewrite !axes_of_cons, axes_of_end. destruct (x =? z) eqn:Q1, (y =? z) eqn:Q2; auto.
  - intros i Hi. simpl in Hi |- *. rewrite !in_app_iff in *. rewrite flat_map_app in Hi. rewrite in_app_iff in Hi. simpl in Hi.
    rewrite ?in_app_iff in Hi. simpl in Hi. simpl. tauto.
Qed.

(** The rows of several vectors. *)
Definition rowv (vs : list val) (k : nat) : val := match row_of vs k with Ok v => v | Err _ => vint 0 end.
Definition getv (v : val) (k : nat) : val := match vget v (Z.of_nat k) with Ok w => w | Err _ => vint 0 end.

Lemma row_of_ok vs n k : vs <> [] -> Forall (fun v => vdim v 0 = Ok n) vs ->
  mapM (fun u => vget u (Z.of_nat k)) vs = Ok (map (fun u => getv u k) vs) /\ row_of vs k = Ok (rowv vs k) /\
  rowv vs k = fold_left VPair (map (fun u => getv u k) (tl vs)) (getv (hd (vint 0) vs) k).
Proof.
  intros NE F.
  assert (Q : mapM (fun u => vget u (Z.of_nat k)) vs = Ok (map (fun u => getv u k) vs)).
  { clear NE. induction F as [|v vs D F IH]; simpl; auto. destruct (vget_leaves v n (Z.of_nat k) D) as (w & W & _).
    unfold getv at 1. rewrite W. simpl. rewrite IH. reflexivity. }
  split; auto. unfold rowv, row_of. rewrite Q. cbn [bind]. destruct vs as [|v vs]; [congruence|]. simpl. auto.
Qed.

Lemma vdim_unif N I P ax l V s s' n n' : vfrep N I P ax l V -> wv N I s -> wv N I s' ->
  vdim (V s) 0 = Ok n -> vdim (V s') 0 = Ok n' -> n = n'.
Proof.
  intros [H1 H2] Hs Hs' D D'.
  assert (L0 : 0 < length l) by (rewrite <- (H1 s Hs); pose proof (vleaves_pos (V s)); lia).
  destruct (H2 0 L0) as (rest & k & F).
  assert (Q : forall s n, wv N I s -> vdim (V s) 0 = Ok n -> exists rr, rest = n :: rr).
  { intros s0 n0 Hs0 D0. destruct (vget_leaves _ _ 0 D0) as (_ & _ & _ & FA). rewrite Forall_forall in FA.
    destruct (FA (leaf V 0 s0)) as (rr & R). { unfold leaf. apply nth_In. rewrite H1; auto. }
    destruct (fr_mem _ _ _ _ _ _ _ _ F _ Hs0) as (_ & _ & S). exists rr. congruence. }
  destruct (Q s n Hs D) as (r1 & E1). destruct (Q s' n' Hs' D') as (r2 & E2). congruence.
Qed.

Lemma vbrep_rowv N I ax n (us : list phi) (ls : list (list arr)) (E : asg -> env) :
  us <> [] -> Forall2 (fun u l => vfrep N I all_axes ax l (fun s => dval (E s) u)) us ls ->
  (forall s, wv N I s -> Forall (fun u => vdim (dval (E s) u) 0 = Ok n) us) ->
  vbrep N I ax n (concat ls) (fun s j => rowv (map (dval (E s)) us) j).
Proof.
  intros NE H HD.
  assert (B : Forall2 (fun u l => vbrep N I ax n l (fun s j => getv (dval (E s) u) j)) us ls).
  { clear NE. induction H as [|u l us ls F H IH]; constructor.
    - eapply vbrep_rows; [exact F| |].
      + intros s Hs. specialize (HD s Hs). inversion HD; auto.
      + intros s j Hs Hj. specialize (HD s Hs). inversion HD as [|? ? D _]; subst.
        destruct (vget_leaves _ _ (Z.of_nat j) D) as (w & W & _). unfold getv. rewrite W. auto.
    - apply IH. intros s Hs. specialize (HD s Hs). inversion HD; auto. }
  destruct B as [|u l us ls B BS]; [congruence|]. clear NE H.
  eapply vbrep_ext with (V := fun s j => fold_left VPair (map (fun u => getv (dval (E s) u) j) us) (getv (dval (E s) u) j)).
  { intros s j Hs Hj. destruct (row_of_ok (map (dval (E s)) (u :: us)) n j) as (_ & _ & Q); [discriminate| |].
    - rewrite Forall_map. auto.
    - rewrite Q. cbn [map tl hd]. rewrite map_map. reflexivity. }
  assert (K : forall V l, vbrep N I ax n l V ->
    vbrep N I ax n (l ++ concat ls) (fun s j => fold_left VPair (map (fun u => getv (dval (E s) u) j) us) (V s j))).
  { clear B. induction BS as [|u' l' us ls B' BS IH]; intros V l0 B; simpl.
    - rewrite app_nil_r. exact B.
    - rewrite app_assoc. apply (IH ltac:(intros s Hs; specialize (HD s Hs); inversion HD as [|? ? ? HD']; inversion HD'; subst; constructor; auto)
        (fun s j => VPair (V s j) (getv (dval (E s) u') j)) (l0 ++ l')). apply vbrep_pair; auto. }
  apply (K (fun s j => getv (dval (E s) u) j) l B).
Qed.

(** The arrays that represent a family are determined by it. *)
Lemma axes_asg (N : nat -> nat) ax : NoDup ax -> forall idx, inb (map N ax) idx ->
  exists s, map s ax = idx /\ (forall i, In i ax -> s i < N i) /\ forall i, ~ In i ax -> s i = 0.
Proof.
  induction 1 as [|x ax Hx ND IH]; intros idx Hi.
  - inversion Hi; subst. exists (fun _ => 0). split; auto. split; auto. intros i [].
  - destruct idx as [|k idx]; [inversion Hi|]. cbn [map] in Hi. apply inb_cons in Hi as [Hk Hi]. destruct (IH _ Hi) as (s & Q1 & Q2 & Q3).
    exists (set_asg s x k). split; [|split].
    + cbn [map]. rewrite set_asg_eq, <- Q1. f_equal. apply map_ext_in. intros i Hin. apply set_asg_neq. intros ->. auto.
    + intros i [<-|Hin]; [rewrite set_asg_eq; auto|]. rewrite set_asg_neq; auto. intros ->. auto.
    + intros i Hin. simpl in Hin. rewrite set_asg_neq; [apply Q3|]; firstorder.
Qed.

Lemma frep_unique N I ax rest k rest' k' b b' A : NoDup ax -> frep N I all_axes ax rest k b A -> frep N I all_axes ax rest' k' b' A -> b = b'.
Proof.
  intros ND [F1 F2 F3 F4 F5] [F1' F2' F3' F4' F5'].
  destruct (F4 _ (wv_zero N I)) as (_ & K & S). destruct (F4' _ (wv_zero N I)) as (_ & K' & S').
  rewrite S in S'. subst rest'.
  apply arr_ext; auto; try congruence.
  intros idx Hidx. rewrite F3 in Hidx. apply inb_app_inv in Hidx as (i1 & p & -> & H1 & H2).
  change (inb (map N ax) i1) in H1. destruct (axes_asg N ax ND i1 H1) as (s & <- & Q2 & Q3).
  assert (W : wv N I s).
  { intros i Hi. destruct (in_dec Nat.eq_dec i ax) as [Q|Q]; [specialize (Q2 i Q); lia|]. rewrite (Q3 i Q). lia. }
  pose proof (F5 s W (fun i Hi _ => Q2 i Hi) p H2) as P1. pose proof (F5' s W (fun i Hi _ => Q2 i Hi) p H2) as P2.
  change (get b (map s ax ++ p) = get (A s) p) in P1. change (get b' (map s ax ++ p) = get (A s) p) in P2. congruence.
Qed.

Lemma vfrep_unique N I ax l l' V : NoDup ax -> vfrep N I all_axes ax l V -> vfrep N I all_axes ax l' V -> l = l'.
Proof.
  intros ND [H1 H2] [H1' H2'].
  assert (L : length l = length l') by (rewrite <- (H1 _ (wv_zero N I)), <- (H1' _ (wv_zero N I)); auto).
  apply nth_ext with (d := dleaf) (d' := dleaf); auto. intros i Hi.
  destruct (H2 i Hi) as (rest & k & F). destruct (H2' i ltac:(lia)) as (rest' & k' & F'). eapply frep_unique; eauto.
Qed.

(** Types of rows. *)
Lemma leaves_len t : forall q q', length (leaves q t) = length (leaves q' t).
Proof. induction t; intros q q'; simpl; auto. rewrite !app_length. f_equal; auto. Qed.

Lemma push_vec_inj a : forall b, push_vec a = push_vec b -> a = b.
Proof.
  induction a as [k|e IHe|a1 IH1 a2 IH2]; destruct b as [k'|e'|b1 b2]; simpl; intros H; try discriminate; try congruence.
  injection H as H1 H2. f_equal; auto.
Qed.

Lemma row_typed vs els t0 ts n k v : Forall2 (fun v el => has_type v (TVec el)) vs els -> els = t0 :: ts ->
  Forall (fun v => vdim v 0 = Ok n) vs -> row_of vs k = Ok v -> has_type v (fold_left TPair ts t0).
Proof.
  intros H -> F R.
  assert (NE : vs <> []) by (intros ->; inversion H).
  destruct (row_of_ok vs n k NE F) as (_ & Q1 & Q2). rewrite Q1 in R. injection R as <-. rewrite Q2.
  assert (T : forall v el, has_type v (TVec el) -> vdim v 0 = Ok n -> has_type (getv v k) el).
  { intros w el [W T] D. pose proof (vget_typed w (Z.of_nat k) (dist el) W T) as Q.
    destruct (vget_leaves _ _ (Z.of_nat k) D) as (u & U & _). unfold getv. rewrite U in *. simpl in Q. destruct Q. split; auto. }
  inversion H as [|v0 ? vs' ? T0 TS]; subst. inversion F as [|? ? D0 DS]; subst. cbn [tl hd]. apply fold_pair_typed; auto.
  clear - T TS DS. induction TS as [|w el ws els Tw TS IH]; simpl; constructor; inversion DS; subst; auto.
Qed.

Lemma rows_leaves vs els : Forall2 (fun v el => has_type v (TVec el)) vs els -> forall t0 ts, els = t0 :: ts ->
  length (concat (map vleaves vs)) = length (leaves 0 (fold_left TPair ts t0)).
Proof.
  intros H t0 ts ->. inversion H as [|v0 ? vs' ? T0 TS]; subst. simpl. rewrite app_length.
  assert (L : forall v el, has_type v (TVec el) -> length (vleaves v) = length (leaves 0 el)).
  { intros v el T. apply has_type_leaves in T. rewrite <- (map_length aty), T. simpl. apply leaves_len. }
  rewrite (L _ _ T0). clear T0 H. revert t0. induction TS as [|v el vs els T TS IH]; intros t0; simpl; [lia|].
  rewrite <- (IH (TPair t0 el)). simpl. rewrite !app_length, (L _ _ T). lia.
Qed.
End Rows.

(** * The translation *)
Section Reduce.
Context {FO : FloatOps} {EX : Externs} {PO : PadOps}.
Variable fl : flags.
Variable orc : oracle.
Variable padk : kind -> bool.
Variable pade : bool.
Notation goodt := (good fl orc padk pade).

Lemma wrap_pack l : wrap_vals (length l =? 1) (pack l) = Ok l.
Proof. destruct l as [|a [|b l]]; reflexivity. Qed.
Lemma unwrap_pack l : unwrap_vals (length l =? 1) l = Ok (pack l).
Proof. destruct l as [|a [|b l]]; reflexivity. Qed.
Lemma pack_sg l : match pack l with YA _ => true | YT _ => false end = (length l =? 1).
Proof. destruct l as [|a [|b l]]; reflexivity. Qed.

(** 192-198, several vectors: a tuple of single arrays *)
Lemma vecs_yok X r ys ls p : Forall2 (yok X r) ys ls -> ys <> [] ->
  ytyp (match ys with [y] => y | _ => YTuple ys end) = Ok p ->
  yok X r (match ys with [y] => y | _ => YTuple ys end) (concat ls).
Proof.
  intros H NE T. destruct H as [|y l ys ls Y H]; [congruence|]. destruct H as [|y' l' ys ls Y' H].
  - simpl. rewrite app_nil_r. auto.
  - cbn [ytyp] in T. apply bind_ok in T as (ps & T1 & T2). apply mapM_Forall2 in T1, T2.
    assert (F : Forall2 (yok X r) (y :: y' :: ys) (l :: l' :: ls)) by auto.
    assert (L : Forall2 (fun y a => yok X r y [a]) (y :: y' :: ys) (concat (l :: l' :: ls)) /\
                length (concat (l :: l' :: ls)) = length (l :: l' :: ls)).
    { clear - F T1 T2. revert ps p T1 T2. induction F as [|y0 l0 ys0 ls0 Y0 F IH]; intros ps p T1 T2; [split; constructor|].
      inversion T1 as [|? p0 ? ps0 Q1 Q2]; subst. inversion T2 as [|? q0 ? qs0 Q3 Q4]; subst.
      destruct (IH _ _ Q2 Q4) as [I1 I2].
      assert (exists a, l0 = [a]) as (a & ->).
      { destruct Y0 as [_ YT]. rewrite Q1 in YT. injection YT as ->. destruct l0 as [|a [|b l0]]; try discriminate. eauto. }
      simpl. split; [constructor; auto|]. f_equal. auto. }
    destruct L as [L1 L2]. apply yok_tuple; auto. rewrite L2. simpl. lia.
Qed.

Section Case.
Variable rec : idx_sizes -> var_axes -> phi -> res axial.
Hypothesis REC : rec_spec fl orc padk pade rec.
Variables (N : nat -> nat) (I X : list nat) (r : yenv) (idxs : idx_sizes) (vax : var_axes) (E : asg -> env) (G : tctx).
Hypothesis C : ctx N I X r idxs vax E G.
Notation good := (goodt G N I X E).
Notation result_ok := (result_ok N I X r E).

Lemma good_reduce_parts init x y xy vecs : good (PReduce init x y xy vecs) ->
  good init /\ Forall good vecs /\ exists t0 ts, let tx := fold_left TPair ts t0 in
    typ init = Ok tx /\ typ xy = Ok tx /\ Forall2 (fun u el => typ u = Ok (TVec el)) vecs (t0 :: ts).
Proof.
  intros [(t & HT) HSC HINT HEXT HFB HSAFE HDEN]. cbn [typ] in HT. simpl in HSC, HINT, HEXT, HFB.
  apply bind_ok in HT as (ti & T1 & HT). apply bind_ok in HT as (tx & T2 & HT). apply bind_ok in HT as (tvs & T3 & HT).
  apply bind_ok in HT as (u & Q & HT). apply guard_ok, ty_eqb_eq in Q. apply bind_ok in HT as (els & T4 & HT).
  destruct els as [|t0 ts]; [discriminate|]. apply bind_ok in HT as (u' & Q' & HT). apply guard_ok, ty_eqb_eq in Q'.
  rewrite ?all_and_Forall in *. destruct HSC as (S1 & S2 & _), HINT as (I1 & _ & I2), HEXT as (X1 & _ & X2), HFB as (_ & _ & _ & F1 & F2 & _).
  rewrite ?all_and_Forall in *.
  split; [|split].
  - constructor; eauto.
    + intros s Hs f. apply (HSAFE s Hs (S f)).
    + intros s Hs. destruct (HDEN s Hs) as (v & D). cbn [den] in D. apply bind_ok in D as (vs & _ & D). apply bind_ok in D as (ns & _ & D).
      destruct ns; [discriminate|]. apply bind_ok in D as (? & _ & D). apply bind_ok in D as (v0 & D & _). eauto.
  - apply mapM_Forall2 in T3. rewrite Forall_forall in S2, I2, X2, F2. apply Forall_forall. intros o Ho. constructor; auto.
    + apply In_nth with (d := o) in Ho as (j & Hj & <-). exists (nth j tvs ti). apply (Forall2_nth _ _ _ j o ti T3 Hj).
    + intros s Hs f. destruct (HSAFE s Hs (S f)) as (_ & Q2 & _). rewrite Forall_forall in Q2. exact (Q2 o Ho).
    + intros s Hs. destruct (HDEN s Hs) as (v & D). cbn [den] in D. apply bind_ok in D as (vs & D & _). apply mapM_Forall2 in D.
      apply In_nth with (d := o) in Ho as (j & Hj & <-). exists (nth j vs v). apply (Forall2_nth _ _ _ j o v D Hj).
  - exists t0, ts. cbv zeta. split; [congruence|]. split; [congruence|]. apply mapM_Forall2 in T3, T4.
    clear - T3 T4. revert T4. generalize (t0 :: ts). induction T3 as [|u tu us tus U T3 IH]; intros els T4; inversion T4; subst; constructor; auto.
    destruct tu; try discriminate. congruence.
Qed.

Lemma rows_axes x y axi body b0 (G' : tctx) :
  axes_ok ((x, axi) :: (y, axi) :: vax) body b0 -> incl axi I -> scoped G' body ->
  (forall i, G' (SX i) <> None -> G (SX i) <> None) -> incl (ax_axes b0) I.
Proof.
  intros [_ AX] HI SC HG z Hz. destruct (AX z Hz) as [K|(w & K)].
  - apply (in_scope_x X). apply (c_dom _ _ _ _ _ _ _ _ C). apply HG. apply (scoped_free _ _ _ SC K).
  - rewrite !axes_of_cons in K. destruct (x =? w); auto. destruct (y =? w); auto.
    destruct (in_dec Nat.eq_dec w X) as [Hy|Hy].
    + destruct (c_var _ _ _ _ _ _ _ _ C w Hy) as (l & V & _ & _ & (_ & IN & _)). auto.
    + rewrite (c_new _ _ _ _ _ _ _ _ C w Hy) in K. destruct K.
Qed.

(** 192-224 *)
Lemma case_reduce init x y xy vecs a :
  strict fl = true ->
  (forall vax a, rec idxs vax xy = Ok a -> axes_ok vax xy a) ->
  (let* i := rec idxs vax init in
   let* vs := mapM (rec idxs vax) vecs in
   let some_axes := alignment (ax_axes i :: map ax_axes vs) in
   let* b0 := rec idxs ((x, some_axes) :: (y, some_axes) :: vax) xy in
   let axes := ax_axes b0 in
   let xy_axes := axes ++ [new_index orc idxs ((x, axes) :: vax) (PReduce init x y xy vecs)] in
   let* b := rec idxs ((x, xy_axes) :: (y, xy_axes) :: vax) xy in
   let* _ := guard (negb (strict fl) || (axes_eqb (ax_axes b) xy_axes && forallb (covers idxs axes) (i :: vs))) EAssert in
   let* yi := aligned i axes true idxs in
   let* ys := mapM (fun v => aligned v axes true idxs) vs in
   let yv := match ys with [y] => y | _ => YTuple ys end in
   mk_axial axes (YReduce yi x y (ax_expr b) yv (length axes))) = Ok a ->
  good (PReduce init x y xy vecs) -> result_ok (PReduce init x y xy vecs) a.
Proof.
  intros STR AXS H Hg. apply bind_ok in H as (i & Hi & H). apply bind_ok in H as (vs & Hvs & H). cbv zeta in H.
  set (e := PReduce init x y xy vecs) in *. set (some := alignment (ax_axes i :: map ax_axes vs)) in *.
  apply bind_ok in H as (b0 & Hb0 & H). set (axs := ax_axes b0) in *.
  set (t := new_index orc idxs ((x, axs) :: vax) e) in *.
  apply bind_ok in H as (b & Hb & H). apply bind_ok in H as (u & SA & H).
  apply guard_ok in SA. rewrite STR in SA. cbn [negb orb] in SA. apply andb_true_iff in SA as [SA CV].
  cbn [forallb] in CV. apply andb_true_iff in CV as [CVi CVs].
  assert (AB : ax_axes b = axs ++ [t]).
  { unfold axes_eqb in SA. destruct (list_eq_dec _ _ _); [auto|discriminate]. }
  apply bind_ok in H as (yi & Hyi & H). apply bind_ok in H as (ys & Hys & H).
  set (yv := match ys with [y] => y | _ => YTuple ys end) in *.
  apply mk_axial_inv in H as (-> & ND & p & TY & _). pose proof TY as TY0. cbn [ytyp] in TY.
  apply bind_ok in TY as (pi & Tyi & TY). apply bind_ok in TY as (pb & Tyb & TY). apply bind_ok in TY as (pv & Tyv & TY).
  apply bind_ok in TY as (q' & _ & TY). apply bind_ok in TY as (u1 & _ & TY). apply bind_ok in TY as (u2 & _ & TY). injection TY as <-.
  destruct (good_reduce_parts _ _ _ _ _ Hg) as (Gi & Gvs & t0 & ts & PT). cbv zeta in PT.
  set (tx := fold_left TPair ts t0) in *. destruct PT as (Ti & Tx & Tvs).
  destruct (REC _ _ _ _ _ _ _ _ _ _ Hi C Gi) as (li & Yi & Vi).
  destruct Hg as [_ HSC HINT HEXT HFB HSAFE HDEN].
  simpl in HSC, HINT, HEXT, HFB. destruct HSC as (_ & _ & tx' & Tx' & S2). rewrite Tx in Tx'. injection Tx' as <-.
  destruct HINT as (_ & I2 & _), HEXT as (_ & X2 & _), HFB as (NX & NY & XY & _ & _ & FB).
  assert (Hx : ~ In x X) by (intros K; apply NX; apply in_scope_v; auto).
  assert (Hy : ~ In y X) by (intros K; apply NY; apply in_scope_v; auto).
  (* the vectors *)
  assert (RV : Forall2 (fun u v => exists l, yok X r (ax_expr v) l /\ vrep N I (ax_axes v) l (fun s => dval (E s) u)) vecs vs).
  { apply mapM_Forall2 in Hvs. clear - Hvs Gvs REC C. induction Hvs as [|u v us vs Hu Hvs IH]; inversion Gvs; subst; constructor; auto.
    eapply REC; eauto. }
  assert (IS : incl some I).
  { apply alignment_incl. intros ax [<-|Hax]; [apply Vi|]. apply in_map_iff in Hax as (v & <- & Hv). clear - RV Hv.
    induction RV as [|u v0 us vs (l & _ & V) RV IH]; [destruct Hv|]. destruct Hv as [<-|Hv]; auto. apply V. }
  assert (IA : incl axs I).
  { eapply (rows_axes x y some xy b0); [apply AXS; exact Hb0|exact IS|exact S2|]. intros z. rewrite !upd_neq by discriminate. auto. }
  destruct (new_from orc idxs ((x, axs) :: vax) e) as (FT1 & FT2 & FT3).
  assert (TA : assoc t idxs = None).
  { destruct (assoc t idxs) eqn:Q; auto. apply assoc_keys in Q. contradiction. }
  assert (TI : ~ In t I).
  { intros K. destruct (G (SX t)) eqn:Q.
    - destruct (c_idx _ _ _ _ _ _ _ _ C t K) as (y' & Q' & _); congruence.
    - destruct (c_batch _ _ _ _ _ _ _ _ C t K Q) as [_ Q']. apply FT3. simpl. apply in_or_app. auto. }
  (* aligned operands *)
  destruct (aligned_ok N I X r i axs true idxs yi _ _ Hyi (sizes_ctx _ _ _ _ _ _ _ _ C) ND IA Yi Vi)
    as (l0 & Y0 & L0 & _ & F0).
  assert (R0 : vfrep N I all_axes axs l0 (fun s => dval (E s) init)).
  { eapply vfrep_ext; [| |exact F0]; auto. intros j Hj. cbv beta. apply covers_has with (axes := axs); auto. }
  assert (RL : exists ls, Forall2 (yok X r) ys ls /\ Forall2 (fun u l => vfrep N I all_axes axs l (fun s => dval (E s) u)) vecs ls).
  { apply mapM_Forall2 in Hys. clear - RV Hys CVs C ND IA. revert ys Hys CVs.
    induction RV as [|u v us vs (l & Y & V) RV IH]; intros ys Hys CVs; inversion Hys as [|? y0 ? ys0 Hy0 Hys0]; subst.
    - exists []. split; constructor.
    - cbn [forallb] in CVs. apply andb_true_iff in CVs as [CV1 CV2]. destruct (IH _ Hys0 CV2) as (ls & A & B).
      destruct (aligned_ok N I X r v axs true idxs y0 _ _ Hy0 (sizes_ctx _ _ _ _ _ _ _ _ C) ND IA Y V) as (l' & Y' & _ & _ & F').
      exists (l' :: ls). split; constructor; auto. eapply vfrep_ext; [| |exact F']; auto.
      intros j Hj. cbv beta. apply covers_has with (axes := axs); auto. }
  destruct RL as (ls & Yls & Rls).
  assert (NEV : vecs <> []) by (intros ->; inversion Tvs).
  assert (NEY : ys <> []).
  { intros ->. inversion Yls; subst. inversion Rls; subst. congruence. }
  assert (Yv : yok X r yv (concat ls)) by (eapply vecs_yok; eauto).
  (* the values *)
  assert (DI : forall s, wv N I s -> den (E s) init = Ok (dval (E s) init)) by (intros s Hs; eapply good_den; eauto).
  assert (DV : forall s, wv N I s -> mapM (den (E s)) vecs = Ok (map (dval (E s)) vecs)).
  { intros s Hs. clear - Gvs Hs. induction Gvs as [|u us Gu Gvs IH]; simpl; auto. rewrite (good_den _ _ _ _ _ _ _ _ _ _ _ Gu Hs), IH. reflexivity. }
  assert (TV : forall s, wv N I s -> Forall2 (fun v el => has_type v (TVec el)) (map (dval (E s)) vecs) (t0 :: ts)).
  { intros s Hs. clear - Gvs Tvs C Hs. induction Tvs as [|u el us els Tu Tvs IH]; simpl; inversion Gvs; subst; constructor; auto.
    eapply good_typed; eauto. }
  assert (LEN : exists n, forall s, wv N I s -> Forall (fun u => vdim (dval (E s) u) 0 = Ok n) vecs).
  { assert (Q : forall s, wv N I s -> exists n, Forall (fun u => vdim (dval (E s) u) 0 = Ok n) vecs).
    { intros s Hs. destruct (HDEN s Hs) as (v & D). unfold e in D. cbn [den] in D. rewrite (DV s Hs) in D. cbn [bind] in D.
      apply bind_ok in D as (ns & Dn & D). destruct ns as [|n ns]; [discriminate|]. apply bind_ok in D as (u' & Q & _).
      apply guard_ok in Q. rewrite forallb_forall in Q. apply mapM_Forall2 in Dn. exists n.
      assert (QA : forall k, In k (n :: ns) -> k = n) by (intros k [->|Hk]; auto; symmetry; apply Nat.eqb_eq; auto).
      clear - Dn QA. revert Dn QA. generalize (n :: ns). induction vecs as [|w ws IH]; intros l Dn QA; constructor; inversion Dn; subst.
      - rewrite <- (QA y) at 1; [auto|left; auto].
      - eapply IH; eauto. intros k Hk. apply QA. right; auto. }
    destruct (Q _ (wv_zero N I)) as (n & Hn). exists n. intros s Hs. destruct (Q s Hs) as (n' & Hn').
    clear - Hn Hn' Rls Hs. induction Rls as [|u l us ls F Rls IH]; constructor; inversion Hn; inversion Hn'; subst; auto.
    assert (n = n') by (apply (vdim_unif _ _ _ _ _ _ _ s n n' F (wv_zero N I) Hs); auto). subst; auto. }
  destruct LEN as (n & LEN).
  set (f := fun s a c => dval (red_env (E s) x y a c) xy).
  set (M := fun s v => combined (E s) init x y xy vecs v /\ has_type v tx).
  set (R := fun s j => rowv (map (dval (E s)) vecs) j).
  assert (FD : forall s, wv N I s -> Forall (fun v => vdim v 0 = Ok n) (map (dval (E s)) vecs)).
  { intros s Hs. rewrite Forall_map. apply LEN; auto. }
  assert (NEM : forall s, map (dval (E s)) vecs <> []) by (intros s K; apply map_eq_nil in K; auto).
  assert (RS : forall s, wv N I s -> reduce_safe (E s) init x y xy vecs).
  { intros s Hs. destruct (HSAFE s Hs 1) as (_ & _ & Q & _). exact Q. }
  assert (ET : forall s a c, wv N I s -> has_type a tx -> has_type c tx ->
     env_typed (upd (upd G (SV x) tx) (SV y) tx) (red_env (E s) x y a c)).
  { intros s a c Hs Ha Hc. apply env_typed_upd; auto. apply env_typed_upd; auto. apply (c_typ _ _ _ _ _ _ _ _ C); auto. }
  assert (OP : forall s a c, wv N I s -> M s a -> M s c -> den (red_env (E s) x y a c) xy = Ok (f s a c) /\ M s (f s a c)).
  { intros s a c Hs [Ma Ta] [Mc Tc]. destruct (RS s Hs) as (DEF & _ & _). destruct (DEF a c Ma Mc) as (v & D).
    unfold f. rewrite (dval_ok _ _ _ D). split; auto. split; [exact (comb_op _ _ _ _ _ _ a c v Ma Mc D)|].
    pose proof (type_sound xy _ _ tx Tx S2 I2 X2 (ET s a c Hs Ta Tc)) as Q. rewrite D in Q. exact Q. }
  assert (MI : forall s, wv N I s -> M s (dval (E s) init)).
  { intros s Hs. split; [apply comb_init; auto|eapply good_typed; eauto]. }
  assert (MR : forall s j, wv N I s -> j < n -> M s (R s j)).
  { intros s j Hs Hj. destruct (row_of_ok (map (dval (E s)) vecs) n j (NEM s) (FD s Hs)) as (_ & Q & _). split.
    - eapply comb_row; eauto.
    - exact (row_typed _ _ t0 ts n j _ (TV s Hs) eq_refl (FD s Hs) Q). }
  assert (AS : forall s a c d, wv N I s -> M s a -> M s c -> M s d -> f s a (f s c d) = f s (f s a c) d).
  { intros s a c d Hs Ma Mc Md. destruct (RS s Hs) as (_ & ASS & _).
    destruct (OP s a c Hs Ma Mc) as [D1 M1]. destruct (OP s c d Hs Mc Md) as [D2 M2].
    pose proof (ASS a c d _ _ (proj1 Ma) (proj1 Mc) (proj1 Md) D1 D2) as Q.
    rewrite (proj1 (OP s a _ Hs Ma M2)), (proj1 (OP s _ d Hs M1 Md)) in Q. congruence. }
  assert (IDN : forall s a, wv N I s -> M s a -> f s (dval (E s) init) a = a /\ f s a (dval (E s) init) = a).
  { intros s a Hs Ma. destruct (RS s Hs) as (_ & _ & ID). destruct (ID _ a (DI s Hs) (proj1 Ma)) as [Q1 Q2].
    split; apply dval_ok; auto. }
  assert (FL : forall s s', (forall i, In i I -> s i = s' i) -> f s = f s').
  { intros s s' Hs. unfold f. rewrite (c_loc _ _ _ _ _ _ _ _ C s s' Hs). auto. }
  (* the reference *)
  assert (DE : forall s, wv N I s -> dval (E s) e = fold_right (f s) (dval (E s) init) (map (R s) (seq 0 n))).
  { intros s Hs. apply dval_ok. unfold e. cbn [den]. rewrite (DV s Hs). cbn [bind].
    assert (DN : mapM (fun v => vdim v 0) (map (dval (E s)) vecs) = Ok (repeat n (length vecs))).
    { specialize (LEN s Hs). clear - LEN. induction LEN as [|u us D LEN IH]; simpl; auto. rewrite D. simpl. rewrite IH. reflexivity. }
    rewrite DN. cbn [bind]. assert (exists lv, length vecs = S lv) as (lv & LVE) by (destruct vecs; [congruence|simpl; eauto]).
    rewrite LVE. cbn [repeat].
    assert (GR : forallb (Nat.eqb n) (repeat n lv) = true).
    { apply forallb_forall. intros k Hk. apply List.repeat_spec in Hk. subst. apply Nat.eqb_refl. }
    rewrite GR. cbn [guard bind]. rewrite (DI s Hs). cbn [bind].
    assert (IT : forall m k v, k + m <= n -> M s v ->
      iter_res (fun k v => let* es := mapM (fun u => vget u (Z.of_nat k)) (map (dval (E s)) vecs) in
         match es with [] => Err EType | e0 :: es' => den (upd (upd (E s) (SV x) v) (SV y) (fold_left VPair es' e0)) xy end) k m v
      = Ok (fold_left (f s) (map (R s) (seq k m)) v)).
    { induction m as [|m IHm]; intros k v Hk Mv; [reflexivity|]. cbn [iter_res seq map fold_left].
      destruct (row_of_ok (map (dval (E s)) vecs) n k (NEM s) (FD s Hs)) as (Q1 & Q2 & _).
      unfold row_of in Q2. rewrite Q1 in Q2 |- *. cbn [bind] in Q2 |- *.
      destruct (map (fun u => getv u k) (map (dval (E s)) vecs)) as [|w ws]; [discriminate|]. injection Q2 as ->.
      destruct (OP s v (R s k) Hs Mv) as [D1 M1]; [apply MR; auto; lia|]. unfold red_env in D1. unfold R in D1. rewrite D1. cbn [bind].
      apply IHm; auto. lia. }
    rewrite IT by auto. f_equal.
    apply (TreeReduce.fold_left_right (fun a c => Ok (f s a c)) (M s) (f s)); auto.
    - intros a c Ha Hc. split; auto. apply OP; auto.
    - apply Forall_forall. intros v Hv. apply in_map_iff in Hv as (k & <- & Hk). apply in_seq in Hk. apply MR; auto. lia. }
  (* combining rows *)
  set (L := length (leaves 0 tx)).
  assert (LM : forall s v, M s v -> length (vleaves v) = L).
  { intros s v [_ T]. apply has_type_leaves in T. unfold L. rewrite <- T, map_length. auto. }
  assert (UNW : forall l, length l = L -> unwrap_vals (L =? 1) l = Ok (pack l)) by (intros l <-; apply unwrap_pack).
  assert (WRP : forall l, length l = L -> wrap_vals (L =? 1) (pack l) = Ok l) by (intros l <-; apply wrap_pack).
  assert (LB : forall m l V, 1 <= m -> vbrep N I axs m l V -> fam N I M m V -> length l = L).
  { intros m l V Hm [B1 _] [_ F1]. rewrite <- (B1 (fun _ => 0) 0 (wv_zero N I)) by lia. apply (LM (fun _ => 0)). apply F1; [apply wv_zero|lia]. }
  assert (GET : forall r', agree X r r' -> forall m p q V1 V2, 1 <= m -> vbrep N I axs m p V1 -> vbrep N I axs m q V2 ->
      fam N I M m V1 -> fam N I M m V2 ->
      exists l, (let* a := unwrap_vals (L =? 1) p in let* c := unwrap_vals (L =? 1) q in
                 let* v := yeval (upd (upd r' (SV x) a) (SV y) c) (ax_expr b) in wrap_vals (L =? 1) v) = Ok l /\
        vbrep N I axs m l (fun s j => f s (V1 s j) (V2 s j))).
  { intros r' AG m p q V1 V2 Hm B1 B2 F1 F2.
    assert (Lp := LB _ _ _ Hm B1 F1). assert (Lq := LB _ _ _ Hm B2 F2).
    rewrite (UNW _ Lp). cbn [bind]. rewrite (UNW _ Lq). cbn [bind].
    pose proof (vbrep_vrep N I axs t TI IA ND m p V1 Hm B1) as VP.
    pose proof (vbrep_vrep N I axs t TI IA ND m q V2 Hm B2) as VQ.
    destruct F1 as [F1l F1m], F2 as [F2l F2m].
    assert (LOC : forall V, local I V -> forall s s', (forall i, In i (t :: I) -> s i = s' i) -> V s (s t) = V s' (s' t)).
    { intros V HV s s' Hs. rewrite (Hs t) by (left; auto). apply HV. intros j Hj. apply Hs. right; auto. }
    assert (C2 := ctx_rows N I X r idxs vax E G t m x y axs p q _ _ tx C TI TA Hx Hy XY VP VQ (LOC _ F1l) (LOC _ F2l)
      (fun s Hs => proj2 (F1m s (s t) (wv_base N I t TI m s Hs) (wv_at N I t m s Hm Hs)))
      (fun s Hs => proj2 (F2m s (s t) (wv_base N I t TI m s Hs) (wv_at N I t m s Hm Hs)))).
    cbv beta in C2. set (E2 := fun s : asg => red_env (E s) x y (V1 s (s t)) (V2 s (s t))) in *.
    assert (D2 : forall s, wv (set_asg N t m) (t :: I) s -> den (E2 s) xy = Ok (f s (V1 s (s t)) (V2 s (s t)))).
    { intros s Hs. pose proof (wv_base N I t TI m s Hs). pose proof (wv_at N I t m s Hm Hs). apply OP; auto. }
    assert (G2 : goodt (upd (upd G (SV x) tx) (SV y) tx) (set_asg N t m) (t :: I) (y :: x :: X) E2 xy).
    { constructor; eauto.
      - eapply fresh_binders_add; [exact FB|]. intros s Hs. destruct s as [z|z].
        + apply in_scope_v in Hs. left. destruct Hs as [->|[->|Hs]]; [right; left; auto|left; auto|].
          right; right. apply in_scope_v; auto.
        + apply in_scope_x in Hs. destruct Hs as [<-|Hs]; [|left; right; right; apply in_scope_x; auto].
          right. intros K. apply FT2. apply in_or_app. right. unfold e. simpl. right; right. rewrite !in_app_iff. auto.
      - intros s Hs g. pose proof (wv_base N I t TI m s Hs). pose proof (wv_at N I t m s Hm Hs).
        destruct (HSAFE s ltac:(auto) (S g)) as (_ & _ & _ & Q). apply Q; auto; [apply F1m|apply F2m]; auto. }
    destruct (REC _ _ _ _ _ _ _ _ _ _ Hb C2 G2) as (lb & Yb & Vb). rewrite AB in Vb.
    rewrite (proj1 Yb) by (apply agree_bind, agree_bind; auto). cbn [bind].
    apply (vrep_vbrep N I axs t TI IA) in Vb.
    assert (BB : vbrep N I axs m lb (fun s j => f s (V1 s j) (V2 s j))).
    { eapply vbrep_ext; [|exact Vb]. intros s j Hs Hj. cbv beta.
      assert (AGR : forall z, In z I -> set_asg s t j z = s z) by (intros z Hz; apply set_asg_neq; intros ->; auto).
      rewrite (dval_ok _ _ _ (D2 _ (wv_row N I t m s j Hs Hj))), set_asg_eq.
      rewrite (FL _ _ AGR), (F1l _ _ j AGR), (F2l _ _ j AGR). auto. }
    assert (Lb : length lb = L).
    { eapply LB; eauto. split.
      - intros s s' j Hs. rewrite (FL s s' Hs), (F1l s s' j Hs), (F2l s s' j Hs). auto.
      - intros s j Hs Hj. apply OP; auto. }
    rewrite (WRP _ Lb). exists lb. auto. }
  (* the loop *)
  assert (BR : vbrep N I axs n (concat ls) R) by (apply vbrep_rowv; auto).
  assert (FR : fam N I M n R).
  { split; auto. intros s s' j Hs. unfold R. rewrite (c_loc _ _ _ _ _ _ _ _ C s s' Hs). auto. }
  destruct (vfrep_unsq N I axs l0 _ R0) as (l1 & HU & LU & BU).
  assert (FU : fam N I M 1 (fun s _ => dval (E s) init)).
  { split; auto. intros s s' j Hs. rewrite (c_loc _ _ _ _ _ _ _ _ C s s' Hs). auto. }
  assert (LV : length (concat ls) = L).
  { unfold L, tx. rewrite <- (rows_leaves _ _ (TV _ (wv_zero N I)) t0 ts eq_refl). rewrite map_map. clear - Rls.
    induction Rls as [|u l us ls [F _] Rls IH]; simpl; auto. rewrite !app_length, IH, (F _ (wv_zero N I)). auto. }
  assert (LI : length l0 = L) by (rewrite <- LU; eapply LB; eauto).
  assert (RUN : forall r', agree X r r' -> exists l', yeval r' (YReduce yi x y (ax_expr b) yv (length axs)) = Ok (pack l') /\
     length l' = L /\ vfrep N I all_axes axs l' (fun s => fold_right (f s) (dval (E s) init) (map (R s) (seq 0 n)))).
  { intros r' AG. cbn [yeval]. rewrite (proj1 Y0 r' AG), (proj1 Yv r' AG). cbn [bind]. unfold reduce_call. rewrite pack_sg, LV.
    rewrite (WRP _ LV). cbn [bind]. rewrite (WRP _ LI). cbn [bind].
    assert (NS : mapM (fun v => of_opt EShape (nth_error (ashape v) (length axs))) (concat ls) = Ok (repeat n (length (concat ls)))).
    { destruct BR as [_ BR]. apply mapM_Forall2. 
      assert (Q : forall k, k < length (concat ls) -> nth_error (ashape (nth k (concat ls) dleaf)) (length axs) = Some n).
      { intros k Hk. destruct (BR k Hk) as (rest & kd & B). rewrite (br_shape _ _ _ _ _ _ _ _ B).
        rewrite nth_error_app2; rewrite map_length; auto. rewrite Nat.sub_diag. reflexivity. }
      clear - Q. induction (concat ls) as [|v l IH]; simpl; constructor.
      - specialize (Q 0 ltac:(simpl; lia)). simpl in Q. rewrite Q. reflexivity.
      - apply IH. intros k Hk. apply (Q (S k)). simpl. lia. }
    rewrite NS. cbn [bind]. assert (LP : 0 < L).
    { rewrite <- (LM _ _ (MI _ (wv_zero N I))). pose proof (vleaves_pos (dval (E (fun _ => 0)) init)). lia. }
    rewrite LV. destruct L as [|L'] eqn:EL; [lia|]. cbn [repeat]. rewrite <- EL in *.
    assert (GR : forallb (Nat.eqb n) (repeat n L') = true).
    { apply forallb_forall. intros k Hk. apply List.repeat_spec in Hk. subst. apply Nat.eqb_refl. }
    rewrite GR. cbn [guard bind]. rewrite HU. cbn [bind].
    destruct (tree_sim N I axs f M _ (fun s a c Hs Ha Hc => proj2 (OP s a c Hs Ha Hc)) AS FL (GET r' AG)
      (S n) n (concat ls) l1 R _ (Nat.lt_succ_diag_r n) BR FR BU FU) as (l2 & HT & BT).
    rewrite HT. cbn [bind]. destruct (vbrep_squeeze N I axs l2 _ BT) as (l3 & HS & LS & FS).
    rewrite HS. cbn [bind]. assert (L3 : length l3 = L).
    { destruct FS as [FS _]. rewrite <- (FS _ (wv_zero N I)).
      rewrite <- (DE _ (wv_zero N I)).
      assert (T : has_type (dval (E (fun _ => 0)) e) tx).
      { rewrite (DE _ (wv_zero N I)). 
        pose proof (fam_fold N I f M (fun s a c Hs Ha Hc => proj2 (OP s a c Hs Ha Hc)) FL n R (fun s _ => dval (E s) init) FR FU) as [_ Q].
        apply (Q _ 0 (wv_zero N I) Nat.lt_0_1). }
      apply has_type_leaves in T. rewrite <- (map_length aty), T. reflexivity. }
    exists l3. rewrite (UNW _ L3). auto. }
  destruct (RUN r (fun z Hz => eq_refl)) as (l' & EV' & LL & FR').
  assert (VR : vrep N I axs l' (fun s => dval (E s) e)).
  { split; auto. split; auto. eapply vfrep_ext; [| |exact FR']; auto. intros s Hs. symmetry. apply DE. auto. }
  exists l'. cbn [ax_axes ax_expr]. split; auto.
  split.
  - intros r' AG. destruct (RUN r' AG) as (l'' & EV'' & LL'' & FR''). rewrite EV''. f_equal. f_equal.
    eapply vfrep_unique; eauto.
  - rewrite TY0. f_equal. destruct Y0 as [_ TT]. rewrite Tyi in TT. injection TT as ->.
    assert (V0 : vrep N I axs l0 (fun s => dval (E s) init)) by (split; auto).
    rewrite (vrep_types _ _ _ _ _ _ V0 (wv_zero N I)), (vrep_types _ _ _ _ _ _ VR (wv_zero N I)). f_equal.
    rewrite (has_type_leaves _ _ (proj2 (MI _ (wv_zero N I)))). symmetry. apply has_type_leaves. rewrite (DE _ (wv_zero N I)).
    pose proof (fam_fold N I f M (fun s a c Hs Ha Hc => proj2 (OP s a c Hs Ha Hc)) FL n R (fun s _ => dval (E s) init) FR FU) as [_ Q].
    apply (Q _ 0 (wv_zero N I) Nat.lt_0_1).
Qed.
End Case.
End Reduce.
