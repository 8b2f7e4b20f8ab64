(** Arrays with one row per element of a batch: the primitives of the pairwise
    reduction (array_backend.py:104-155). *)
From Verif Require Import Base Scalar Tensor Types Sym Phi Den Term PhiTerm DenFree SpecPhi Lining TypesFacts Typing DenWf Naive
  Sizes ClipShift NdOps NdFacts Yarr Axial AxialFacts AxialOps Codegen IndexOps YOps.

Section Batch.
Context {FO : FloatOps} {EX : Externs} {PO : PadOps}.
Variable N : nat -> nat.
Variable I : list nat.
Variable ax : list nat.

(** [b] has [m] rows after the axes [ax]; row [j] represents [A s j]. *)
Record brep (m : nat) (rest : list nat) (k : kind) (b : arr) (A : asg -> nat -> arr) : Prop := {
  br_wf : arr_wf b;
  br_kind : akind b = k;
  br_shape : ashape b = map N ax ++ m :: rest;
  br_mem : forall s j, wv N I s -> j < m -> arr_wf (A s j) /\ akind (A s j) = k /\ ashape (A s j) = rest;
  br_get : forall s j, wv N I s -> j < m -> (forall i, In i ax -> s i < N i) ->
    forall p, inb rest p -> get b (map s ax ++ j :: p) = get (A s j) p
}.

Lemma inb_axes s : (forall i, In i ax -> s i < N i) -> inb (map N ax) (map s ax).
Proof. induction ax as [|x l IH]; simpl; intros H; constructor; auto. apply IH. auto. Qed.

Lemma brep_ext m rest k b A A' : (forall s j, wv N I s -> j < m -> A s j = A' s j) -> brep m rest k b A -> brep m rest k b A'.
Proof.
  intros H [B1 B2 B3 B4 B5]. constructor; auto.
  - intros s j Hs Hj. rewrite <- H by auto. auto.
  - intros s j Hs Hj Hb p Hp. rewrite <- H by auto. auto.
Qed.

Lemma frep_open m rest k b A : frep N I all_axes ax (m :: rest) k b A -> brep m rest k b (fun s j => asub (A s) j).
Proof.
  intros [F1 F2 F3 F4 F5]. constructor; auto.
  - intros s j Hs Hj. destruct (F4 s Hs) as (W & K & S). split; [eapply asub_wf; eauto|]. split; auto.
    rewrite asub_shape, S. auto.
  - intros s j Hs Hj Hb p Hp. destruct (F4 s Hs) as (W & K & S). rewrite asub_get by (rewrite S; auto).
    rewrite <- (F5 s Hs (fun i Hi _ => Hb i Hi)) by (apply inb_cons; auto). reflexivity.
Qed.

Lemma set_nth_at {A} (u v : list A) x y n : n = length u -> set_nth n y (u ++ x :: v) = u ++ y :: v.
Proof. intros ->. rewrite <- (Nat.add_0_r (length u)), set_nth_app_r. reflexivity. Qed.
Lemma nth_at {A} (u v : list A) x d n : n = length u -> nth n (u ++ x :: v) d = x.
Proof. intros ->. rewrite app_nth2 by lia. rewrite Nat.sub_diag. reflexivity. Qed.

Lemma brep_pick m rest k b A ps : brep m rest k b A -> (forall j, In j ps -> j < m) ->
  exists b', nd_pick (length ax) ps b = Ok b' /\ brep (length ps) rest k b' (fun s j => A s (nth j ps 0)).
Proof.
  intros [B1 B2 B3 B4 B5] HP.
  assert (LA : length ax = length (map N ax)) by (rewrite map_length; auto).
  assert (AR : length ax <? arank b = true).
  { apply Nat.ltb_lt. unfold arank. rewrite B3, app_length, map_length. simpl. lia. }
  unfold nd_pick. rewrite AR. cbn [guard bind]. rewrite B3, (nth_at _ _ m 0 _ LA).
  assert (FB : forallb (fun k => k <? m) ps = true) by (apply forallb_forall; intros j Hj; apply Nat.ltb_lt; auto).
  rewrite FB. cbn [guard bind]. eexists. split; [reflexivity|]. rewrite (set_nth_at _ _ m _ _ LA).
  constructor; auto.
  - apply tab_wf. intros idx Hidx. apply inb_app_inv in Hidx as (i1 & i2 & -> & H1 & H2).
    destruct i2 as [|j p]; [inversion H2|]. apply inb_cons in H2 as [Hj Hp].
    assert (L1 : length ax = length i1) by (rewrite (inb_length _ _ H1), map_length; auto).
    rewrite (nth_at _ _ j 0 _ L1), (set_nth_at _ _ j _ _ L1). apply get_kind; auto.
    rewrite B3. apply inb_app; [rewrite <- L1, map_length; auto|]. split; auto. apply inb_cons. split; auto.
    apply HP, nth_In. auto.
  - intros s j Hs Hj. apply B4; auto. apply HP, nth_In. auto.
  - intros s j Hs Hj Hb p Hp. assert (L1 : length ax = length (map s ax)) by (rewrite map_length; auto).
    rewrite get_tab.
    + rewrite (nth_at _ _ j 0 _ L1), (set_nth_at _ _ j _ _ L1). apply B5; auto. apply HP, nth_In. auto.
    + apply inb_app; [rewrite !map_length; auto|]. split; [apply inb_axes; auto|]. apply inb_cons. auto.
Qed.

Lemma frep_unsq rest k b A : frep N I all_axes ax rest k b A ->
  exists b', nd_unsqueeze [length ax] b = Ok b' /\ brep 1 rest k b' (fun s _ => A s).
Proof.
  intros [F1 F2 F3 F4 F5]. change (ashape b = map N ax ++ rest) in F3.
  assert (LA : length (map N ax) = length ax) by apply map_length.
  assert (RB : arank b = length ax + length rest) by (unfold arank; rewrite F3, app_length, LA; auto).
  destruct (unsqueeze_spec [length ax] b F1) as (b' & H & W & K & S & GT).
  - repeat constructor; intros [].
  - intros j [<-|[]]. simpl. lia.
  - exists b'. split; auto.
    assert (S' : ashape b' = map N ax ++ 1 :: rest).
    { rewrite S, F3, RB. rewrite <- LA at 1 2. cbn [length]. replace (length (map N ax) + length rest + 1) with (length (map N ax) + Datatypes.S (length rest)) by lia.
      exact (ins_at_one (map N ax) 1 rest 0). }
    constructor; auto; [congruence|].
    intros s j Hs Hj Hb p Hp. rewrite GT.
    + assert (Q : drop_at [length ax] 0 (map s ax ++ j :: p) = map s ax ++ p).
      { replace (length ax) with (0 + length (map s ax)) by (rewrite map_length; auto). apply drop_at_one. }
      rewrite Q. apply (F5 s Hs (fun i Hi _ => Hb i Hi) p Hp).
    + rewrite S'. apply inb_app; [rewrite !map_length; auto|]. split; [apply inb_axes; auto|]. apply inb_cons. auto.
Qed.

Lemma brep_squeeze rest k b A : brep 1 rest k b A ->
  exists b', nd_squeeze [length ax] b = Ok b' /\ frep N I all_axes ax rest k b' (fun s => A s 0).
Proof.
  intros [B1 B2 B3 B4 B5].
  destruct (squeeze_one (map N ax) rest b B1 B3) as (b' & H & W & K & S & GT). rewrite map_length in H.
  exists b'. split; auto. constructor; auto; [congruence|].
  intros s Hs Hb p Hp. change (map (fun i => if all_axes i then s i else 0) ax) with (map s ax).
  assert (Hb' : forall i, In i ax -> s i < N i) by (intros i Hi; apply Hb; auto).
  rewrite GT; auto. apply inb_axes; auto.
Qed.

Variable t : nat.
Hypothesis HtI : ~ In t I.
Hypothesis IN : incl ax I.
Hypothesis ND : NoDup ax.
Notation Nt m := (set_asg N t m).

Lemma wv_base m s : wv (Nt m) (t :: I) s -> wv N I s.
Proof.
  intros H i Hi. specialize (H i (or_intror Hi)). rewrite set_asg_neq in H; auto. intros ->. auto.
Qed.
Lemma wv_at m s : 1 <= m -> wv (Nt m) (t :: I) s -> s t < m.
Proof. intros Hm H. specialize (H t (or_introl eq_refl)). rewrite set_asg_eq in H. lia. Qed.
Lemma wv_row m s j : wv N I s -> j < m -> wv (Nt m) (t :: I) (set_asg s t j).
Proof.
  intros H Hj i Hi. destruct (Nat.eq_dec i t) as [->|NE]; [rewrite !set_asg_eq; lia|].
  rewrite !set_asg_neq by auto. destruct Hi; [congruence|]. auto.
Qed.

Lemma ax_t i : In i ax -> i <> t.
Proof. intros Hi ->. auto. Qed.

Lemma brep_frep m rest k b A : 1 <= m -> brep m rest k b A ->
  frep (Nt m) (t :: I) all_axes (ax ++ [t]) rest k b (fun s => A s (s t)).
Proof.
  intros Hm [B1 B2 B3 B4 B5]. constructor; auto.
  - rewrite B3, map_app, <- app_assoc. cbn [map app all_axes]. rewrite set_asg_eq. f_equal.
    apply map_ext_in. intros i Hi. rewrite set_asg_neq; auto. apply ax_t; auto.
  - intros s Hs. apply B4; [eapply wv_base; eauto|eapply wv_at; eauto].
  - intros s Hs Hb p Hp. rewrite map_app, <- app_assoc. cbn [map app all_axes].
    apply (B5 s (s t)); auto; [eapply wv_base; eauto|eapply wv_at; eauto|].
    intros i Hi. specialize (Hb i (in_or_app _ _ _ (or_introl Hi)) eq_refl). rewrite set_asg_neq in Hb; auto. apply ax_t; auto.
Qed.

Lemma frep_brep m rest k b B : frep (Nt m) (t :: I) all_axes (ax ++ [t]) rest k b B ->
  brep m rest k b (fun s j => B (set_asg s t j)).
Proof.
  intros [F1 F2 F3 F4 F5]. constructor; auto.
  - rewrite F3, map_app, <- app_assoc. cbn [map app all_axes]. rewrite set_asg_eq. f_equal.
    apply map_ext_in. intros i Hi. rewrite set_asg_neq; auto. apply ax_t; auto.
  - intros s j Hs Hj. apply F4. apply wv_row; auto.
  - intros s j Hs Hj Hb p Hp. rewrite <- (F5 _ (wv_row m s j Hs Hj)); auto.
    + rewrite map_app, <- app_assoc. cbn [map app all_axes]. rewrite set_asg_eq. f_equal. f_equal.
      apply map_ext_in. intros i Hi. rewrite set_asg_neq; auto. apply ax_t; auto.
    + intros i Hi _. apply in_app_or in Hi as [Hi|[<-|[]]]; [|rewrite !set_asg_eq; auto].
      rewrite !set_asg_neq by (apply ax_t; auto). auto.
Qed.

(** The same for values made of several arrays. *)
Definition vbrep (m : nat) (l : list arr) (V : asg -> nat -> val) : Prop :=
  (forall s j, wv N I s -> j < m -> length (vleaves (V s j)) = length l) /\
  forall i, i < length l -> exists rest k, brep m rest k (nth i l dleaf) (fun s j => nth i (vleaves (V s j)) dleaf).

Lemma vbrep_ext m l V V' : (forall s j, wv N I s -> j < m -> V s j = V' s j) -> vbrep m l V -> vbrep m l V'.
Proof.
  intros H [H1 H2]. split.
  - intros s j Hs Hj. rewrite <- H by auto. auto.
  - intros i Hi. destruct (H2 i Hi) as (rest & k & B). exists rest, k. eapply brep_ext; [|exact B].
    intros s j Hs Hj. cbv beta. rewrite H by auto. auto.
Qed.

Lemma mapM_leaves (f : arr -> res arr) (l : list arr) (Q : nat -> arr -> Prop) :
  (forall i, i < length l -> exists b, f (nth i l dleaf) = Ok b /\ Q i b) ->
  exists l', mapM f l = Ok l' /\ length l' = length l /\ forall i, i < length l -> Q i (nth i l' dleaf).
Proof.
  revert Q. induction l as [|a l IH]; intros Q H.
  - exists []. split; auto. split; auto. intros i Hi. simpl in Hi. lia.
  - destruct (H 0 ltac:(simpl; lia)) as (b & F & Qb). destruct (IH (fun i => Q (S i))) as (l' & M & L & HQ).
    { intros i Hi. apply (H (S i)). simpl. lia. }
    exists (b :: l'). simpl in F |- *. rewrite F, M. split; auto. split; [simpl; auto|].
    intros [|i] Hi; auto. apply HQ. lia.
Qed.

Lemma vbrep_pick m l V f ps : vbrep m l V -> f m = ps -> (forall j, In j ps -> j < m) ->
  exists l', mapM (pick (length ax) f) l = Ok l' /\ length l' = length l /\ vbrep (length ps) l' (fun s j => V s (nth j ps 0)).
Proof.
  intros [H1 H2] Hf HP.
  destruct (mapM_leaves (pick (length ax) f) l (fun i b => exists rest k, brep (length ps) rest k b
     (fun s j => nth i (vleaves (V s (nth j ps 0))) dleaf))) as (l' & M & L & Q).
  - intros i Hi. destruct (H2 i Hi) as (rest & k & B). destruct (brep_pick _ _ _ _ _ _ B HP) as (b' & HB & B').
    exists b'. split; eauto. unfold pick. rewrite (br_shape _ _ _ _ _ B), nth_at by (rewrite map_length; auto). rewrite Hf. auto.
  - exists l'. split; auto. split; auto. split; [|intros i Hi; apply Q; lia].
    intros s j Hs Hj. rewrite L. apply H1; auto. apply HP, nth_In. auto.
Qed.

Lemma vfrep_unsq l V : vfrep N I all_axes ax l V ->
  exists l', mapM (nd_unsqueeze [length ax]) l = Ok l' /\ length l' = length l /\ vbrep 1 l' (fun s _ => V s).
Proof.
  intros [H1 H2].
  destruct (mapM_leaves (nd_unsqueeze [length ax]) l (fun i b => exists rest k, brep 1 rest k b (fun s j => leaf V i s)))
    as (l' & M & L & Q).
  - intros i Hi. destruct (H2 i Hi) as (rest & k & B). destruct (frep_unsq _ _ _ _ B) as (b' & HB & B'). eauto 6.
  - exists l'. split; auto. split; auto. split; [|intros i Hi; apply Q; lia]. intros s j Hs Hj. rewrite L. auto.
Qed.

Lemma vbrep_squeeze l V : vbrep 1 l V ->
  exists l', mapM (nd_squeeze [length ax]) l = Ok l' /\ length l' = length l /\ vfrep N I all_axes ax l' (fun s => V s 0).
Proof.
  intros [H1 H2].
  destruct (mapM_leaves (nd_squeeze [length ax]) l (fun i b => exists rest k, frep N I all_axes ax rest k b (leaf (fun s => V s 0) i)))
    as (l' & M & L & Q).
  - intros i Hi. destruct (H2 i Hi) as (rest & k & B). destruct (brep_squeeze _ _ _ _ B) as (b' & HB & B'). eauto 6.
  - exists l'. split; auto. split; auto. split; [|intros i Hi; apply Q; lia]. intros s Hs. rewrite L. auto.
Qed.

Lemma vbrep_vrep m l V : 1 <= m -> vbrep m l V -> vrep (Nt m) (t :: I) (ax ++ [t]) l (fun s => V s (s t)).
Proof.
  intros Hm [H1 H2]. split; [|split].
  - clear - HtI IN ND. induction ax as [|x l IH]; simpl; [repeat constructor; intros []|]. inversion ND; subst. constructor.
    + intros K. apply in_app_or in K as [K|[->|[]]]; auto. apply HtI, IN. left; auto.
    + apply IH; auto. intros z Hz. apply IN. right; auto.
  - intros i Hi. apply in_app_or in Hi as [Hi|[<-|[]]]; [right|left]; auto.
  - split.
    + intros s Hs. apply H1; [eapply wv_base; eauto|eapply wv_at; eauto].
    + intros i Hi. destruct (H2 i Hi) as (rest & k & B). exists rest, k. exact (brep_frep _ _ _ _ _ Hm B).
Qed.

Lemma vrep_vbrep m l V : vrep (Nt m) (t :: I) (ax ++ [t]) l V -> vbrep m l (fun s j => V (set_asg s t j)).
Proof.
  intros (_ & _ & H1 & H2). split.
  - intros s j Hs Hj. apply H1. apply wv_row; auto.
  - intros i Hi. destruct (H2 i Hi) as (rest & k & B). exists rest, k. exact (frep_brep _ _ _ _ _ B).
Qed.

(** The rows of a vector. *)
Lemma vget_leaves v : forall n z, vdim v 0 = Ok n -> exists w, vget v z = Ok w /\
  vleaves w = map (fun a => asub a (clip z n)) (vleaves v) /\ Forall (fun a => exists rest, ashape a = n :: rest) (vleaves v).
Proof.
  induction v as [a|v IHv w IHw]; intros n z H; cbn [vdim vget vleaves] in *.
  - destruct (ashape a) as [|m rest] eqn:S; [discriminate|]. injection H as ->. unfold aget. rewrite S. simpl. eexists. split; [reflexivity|].
    split; eauto.
  - apply bind_ok in H as (n1 & H1 & H). apply bind_ok in H as (n2 & H2 & H). apply bind_ok in H as (u & Q & H).
    apply guard_ok, Nat.eqb_eq in Q. injection H as ->. subst n2.
    destruct (IHv _ z H1) as (v' & -> & L1 & F1). destruct (IHw _ z H2) as (w' & -> & L2 & F2). cbn [bind].
    eexists. split; [reflexivity|]. cbn [vleaves]. rewrite map_app, L1, L2. split; auto. apply Forall_app. auto.
Qed.

Lemma vbrep_rows n l V (R : asg -> nat -> val) : vfrep N I all_axes ax l V ->
  (forall s, wv N I s -> vdim (V s) 0 = Ok n) ->
  (forall s j, wv N I s -> j < n -> vget (V s) (Z.of_nat j) = Ok (R s j)) ->
  vbrep n l R.
Proof.
  intros [H1 H2] HD HR.
  assert (L : forall s j, wv N I s -> j < n -> vleaves (R s j) = map (fun a => asub a j) (vleaves (V s)) /\
    Forall (fun a => exists rest, ashape a = n :: rest) (vleaves (V s))).
  { intros s j Hs Hj. destruct (vget_leaves (V s) n (Z.of_nat j) (HD s Hs)) as (w & Q & LW & FW).
    rewrite HR in Q by auto. injection Q as <-. split; auto. rewrite LW. f_equal.
    assert (C : clip (Z.of_nat j) n = j) by (unfold clip; lia). rewrite C. auto. }
  split.
  - intros s j Hs Hj. destruct (L s j Hs Hj) as [-> _]. rewrite map_length. auto.
  - intros i Hi. destruct (H2 i Hi) as (rest0 & k & F).
    assert (S : exists rest, rest0 = n :: rest).
    { destruct (fr_mem _ _ _ _ _ _ _ _ F _ (wv_zero N I)) as (_ & _ & S).
      destruct (vget_leaves (V (fun _ => 0)) n 0 (HD _ (wv_zero N I))) as (w & _ & _ & FW).
      rewrite Forall_forall in FW. destruct (FW (leaf V i (fun _ => 0))) as (rest & Q).
      - unfold leaf. apply nth_In. rewrite H1; auto. apply wv_zero.
      - exists rest. congruence. }
    destruct S as (rest & ->). exists rest, k. eapply brep_ext; [|exact (frep_open _ _ _ _ _ F)].
    intros s j Hs Hj. cbv beta. destruct (L s j Hs Hj) as [-> _]. unfold leaf. symmetry.
    rewrite nth_indep with (d' := asub dleaf j) by (rewrite map_length, H1; auto).
    rewrite (map_nth (fun a => asub a j)). reflexivity.
Qed.

Lemma vbrep_pair m l1 l2 V1 V2 : vbrep m l1 V1 -> vbrep m l2 V2 -> vbrep m (l1 ++ l2) (fun s j => VPair (V1 s j) (V2 s j)).
Proof.
  intros [A1 A2] [B1 B2]. split.
  - intros s j Hs Hj. cbn [vleaves]. rewrite !app_length, A1, B1; auto.
  - intros i Hi. rewrite app_length in Hi. destruct (Nat.lt_ge_cases i (length l1)) as [Q|Q].
    + destruct (A2 i Q) as (rest & k & B). exists rest, k. rewrite app_nth1 by auto. eapply brep_ext; [|exact B].
      intros s j Hs Hj. cbn [vleaves]. rewrite app_nth1; auto. rewrite A1; auto.
    + destruct (B2 (i - length l1) ltac:(lia)) as (rest & k & B). exists rest, k. rewrite app_nth2 by auto. eapply brep_ext; [|exact B].
      intros s j Hs Hj. cbn [vleaves]. rewrite app_nth2; rewrite A1; auto.
Qed.
End Batch.

(** Positions of the two halves of a batch. *)
Lemma evens_eq m : evens m = map (fun j => 2 * j) (seq 0 (m / 2)).
Proof.
  unfold evens. assert (Q : forall k, filter Nat.even (seq 0 (2 * k)) = map (fun j => 2 * j) (seq 0 k) /\
    filter Nat.even (seq 0 (2 * k + 1)) = map (fun j => 2 * j) (seq 0 (S k))).
  { induction k as [|k [_ IH]]; [split; reflexivity|].
    assert (H1 : filter Nat.even (seq 0 (2 * S k)) = map (fun j => 2 * j) (seq 0 (S k))).
    { replace (2 * S k) with (S (2 * k + 1)) by lia. rewrite seq_S, filter_app, IH. simpl filter at 1.
      replace (Nat.even (k + (k + 0) + 1)) with false; [apply app_nil_r|].
      symmetry. rewrite <- Nat.negb_odd. replace (k + (k + 0) + 1) with (1 + 2 * k) by lia. rewrite Nat.odd_add_mul_2. reflexivity. }
    split; auto. rewrite Nat.add_1_r, seq_S, filter_app, H1. rewrite (seq_S (S k)), map_app. f_equal.
    cbn [plus filter map]. replace (Nat.even (2 * S k)) with true; [reflexivity|]. symmetry. apply Nat.even_mul. }
  destruct m as [|m]; [reflexivity|]. replace (S m - 1) with m by lia.
  destruct (Nat.Even_or_Odd m) as [[k ->]|[k ->]].
  - destruct (Q k) as [-> _]. replace (S (2 * k)) with (1 + k * 2) by lia. rewrite Nat.div_add by lia. reflexivity.
  - destruct (Q k) as [_ ->]. replace (S (2 * k + 1)) with (0 + S k * 2) by lia. rewrite Nat.div_add by lia. reflexivity.
Qed.

Lemma odds_eq m : odds m = map (fun j => 2 * j + 1) (seq 0 (m / 2)).
Proof.
  unfold odds. assert (Q : forall k, filter Nat.odd (seq 0 (2 * k)) = map (fun j => 2 * j + 1) (seq 0 k) /\
    filter Nat.odd (seq 0 (2 * k + 1)) = map (fun j => 2 * j + 1) (seq 0 k)).
  { induction k as [|k [_ IH]]; [split; reflexivity|].
    assert (H1 : filter Nat.odd (seq 0 (2 * S k)) = map (fun j => 2 * j + 1) (seq 0 (S k))).
    { replace (2 * S k) with (S (2 * k + 1)) by lia. rewrite seq_S, filter_app, IH, (seq_S k), map_app. f_equal.
      cbn [plus filter map]. replace (Nat.odd (2 * k + 1)) with true; [reflexivity|]. symmetry.
      replace (2 * k + 1) with (1 + 2 * k) by lia. rewrite Nat.odd_add_mul_2. reflexivity. }
    split; auto. rewrite Nat.add_1_r, seq_S, filter_app, H1. cbn [plus filter].
    replace (Nat.odd (2 * S k)) with false; [apply app_nil_r|]. symmetry. rewrite <- Nat.negb_even, Nat.even_mul. reflexivity. }
  destruct (Nat.Even_or_Odd m) as [[k ->]|[k ->]].
  - destruct (Q k) as [-> _]. replace (2 * k) with (k * 2) by lia. rewrite Nat.div_mul by lia. reflexivity.
  - destruct (Q k) as [_ ->]. replace (2 * k + 1) with (1 + k * 2) by lia. rewrite Nat.div_add by lia. reflexivity.
Qed.
