(** Sums of aligned operands and contractions of families. *)
From Verif Require Import Base Scalar Tensor Types Sym Phi Den Term PhiTerm DenFree SpecPhi Lining LiningFacts TypesFacts Typing DenWf Naive
  Sizes ClipShift NdOps NdFacts Yarr YWf Axial AxialFacts AxialOps Codegen IndexOps YOps CodegenSafe CodegenGet CodegenCtx CodegenCases
  CodegenSub CodegenAxes CodegenCorrect CodegenRed Lift SumFacts Subscripts.
From Coq Require Import Permutation.

Lemma mem_app x l l' : mem x (l ++ l') = mem x l || mem x l'.
Proof. unfold mem. apply existsb_app. Qed.

Lemma trim_head ax used : trim ax used = [] \/ exists x t, trim ax used = x :: t /\ mem x ax = true.
Proof.
  induction used as [|x used IH]; simpl; auto. destruct (mem x ax) eqn:Q; auto. right. eauto.
Qed.
Lemma trim_all ax used : (forall x, In x used -> In x ax) -> trim ax used = used.
Proof. destruct used as [|x used]; auto. intros H. simpl. rewrite (proj2 (mem_In _ _)); auto. apply H. left; auto. Qed.
Lemma trim_pre ax pre used : (forall x, In x pre -> mem x ax = false) -> trim ax (pre ++ used) = trim ax used.
Proof. induction pre as [|x pre IH]; simpl; auto. intros H. rewrite H by (left; auto). apply IH. auto. Qed.

Section Add.
Context {FO : FloatOps} {EX : Externs} {PO : PadOps}.
Variable N : nat -> nat.

Lemma bidx_trim_some ax used s : (forall i, In i used -> mem i ax = true -> s i < N i) ->
  bidx (map (fun i => if mem i ax then N i else 1) (trim ax used)) (map s used)
  = map (fun i => if mem i ax then s i else 0) (trim ax used).
Proof.
  intros H. unfold bidx. rewrite !map_length.
  assert (E : skipn (length used - length (trim ax used)) (map s used) = map s (trim ax used)).
  { destruct (trim_suffix ax used) as (pre & E & _). rewrite E at 1 3. rewrite app_length, map_app.
    replace (length pre + length (trim ax used) - length (trim ax used)) with (length (map s pre))
      by (rewrite map_length; lia).
    rewrite skipn_app, skipn_all, Nat.sub_diag. reflexivity. }
  rewrite E.
  pose proof (bzip_assign N ax (trim ax used) s [] [] inb_nil) as B. rewrite !app_nil_r in B. apply B.
  intros i Hi. apply H. eapply trim_incl; eauto.
Qed.

(** The sum of two float operands aligned to the same axes. *)
Lemma add_ok I used ax1 ax2 b1 b2 (f g : asg -> F) :
  operand_ok N I used [] (mkOperand ax1 KFloat b1 (fun s => ascalar (SF (f s)))) ->
  operand_ok N I used [] (mkOperand ax2 KFloat b2 (fun s => ascalar (SF (g s)))) ->
  exists b, nd_bin BAdd b1 b2 = Ok b /\
    operand_ok N I used [] (mkOperand (ax1 ++ ax2) KFloat b (fun s => ascalar (SF (fadd (f s) (g s))))).
Proof.
  unfold operand_ok. cbn [o_ax o_kind o_arr o_fam]. set (U := trim (ax1 ++ ax2) used). intros H1 H2.
  destruct (trim_suffix (ax1 ++ ax2) used) as (pre & EU & HP). fold U in EU.
  assert (P1 : forall x, In x pre -> mem x ax1 = false).
  { intros x Hx. specialize (HP x Hx). rewrite mem_app in HP. apply orb_false_iff in HP. tauto. }
  assert (P2 : forall x, In x pre -> mem x ax2 = false).
  { intros x Hx. specialize (HP x Hx). rewrite mem_app in HP. apply orb_false_iff in HP. tauto. }
  rewrite EU in H1, H2. rewrite trim_pre in H1, H2 by auto.
  set (P := fun i => mem i (ax1 ++ ax2)).
  assert (BS : broadcast_shapes [ashape b1; ashape b2] = Ok (map (fun i => if P i then N i else 1) U)).
  { rewrite (fr_shape _ _ _ _ _ _ _ _ H1), (fr_shape _ _ _ _ _ _ _ _ H2), !app_nil_r. unfold broadcast_shapes.
    assert (LM : list_max (map (@length nat) [map (fun i => if mem i ax1 then N i else 1) (trim ax1 U);
                                              map (fun i => if mem i ax2 then N i else 1) (trim ax2 U)]) = length U).
    { cbn [map]. rewrite !map_length. apply list_max_eq.
      - intros k [<-|[<-|[]]]; apply trim_length.
      - destruct (trim_head (ax1 ++ ax2) used) as [K|(x & t & K & M)]; fold U in K; rewrite K; [left; auto|right].
        rewrite mem_app in M. cbn [trim]. destruct (mem x ax1) eqn:M1; [left; auto|]. simpl in M. rewrite M. right; left; auto. }
    rewrite LM.
    pose proof (zip_all_ops N U [ax1; ax2]) as Z. cbn [map] in Z. rewrite Z. f_equal. apply map_ext. intros i. unfold P. rewrite mem_app.
    simpl. rewrite orb_false_r. auto. }
  unfold nd_bin, nd_ew. cbn [map]. rewrite BS, (fr_kind _ _ _ _ _ _ _ _ H1), (fr_kind _ _ _ _ _ _ _ _ H2). cbn [bind].
  change (of_opt EType (kf2 (kind_bin BAdd) [KFloat; KFloat])) with (Ok KFloat). cbn [bind].
  eexists. split; [reflexivity|]. constructor.
  - apply tab_wf. intros idx _. cbn [sf2].
    assert (K1 : skind (get b1 (bidx (ashape b1) idx)) = KFloat) by (rewrite <- (fr_kind _ _ _ _ _ _ _ _ H1); apply get_kind_any; apply H1).
    assert (K2 : skind (get b2 (bidx (ashape b2) idx)) = KFloat) by (rewrite <- (fr_kind _ _ _ _ _ _ _ _ H2); apply get_kind_any; apply H2).
    destruct (get b1 _), (get b2 _); try discriminate; reflexivity.
  - reflexivity.
  - simpl. rewrite app_nil_r. reflexivity.
  - intros s Hs. split; [apply ascalar_wf|split; reflexivity].
  - intros s Hs HI p Hp. inversion Hp; subst p. rewrite app_nil_r.
    rewrite get_tab by (apply (inb_assign N P U s HI)). cbn [sf2].
    rewrite (fr_shape _ _ _ _ _ _ _ _ H1), (fr_shape _ _ _ _ _ _ _ _ H2), !app_nil_r.
    set (s' := fun i => if P i then s i else 0).
    assert (B : forall ax b A, (forall i, mem i ax = true -> P i = true) -> frep N I (fun i => mem i ax) (trim ax U) [] KFloat b A ->
       get b (bidx (map (fun i => if mem i ax then N i else 1) (trim ax U)) (map s' U)) = get (A s) []).
    { intros ax b A HP' FR.
      assert (LT : forall i, In i U -> mem i ax = true -> s i < N i) by (intros i Hi M; apply HI; auto; apply HP'; auto).
      rewrite bidx_trim_some.
      - rewrite <- (fr_get _ _ _ _ _ _ _ _ FR s Hs) with (p := []).
        + rewrite app_nil_r. f_equal. apply map_ext. intros i. unfold s'. destruct (mem i ax) eqn:M; auto. rewrite HP'; auto.
        + intros i Hi M. apply LT; auto. eapply trim_incl; eauto.
        + constructor.
      - intros i Hi M. unfold s'. rewrite HP' by auto. auto. }
    rewrite (B ax1 b1 (fun s => ascalar (SF (f s)))); [|intros i M; unfold P; rewrite mem_app, M; auto|exact H1].
    rewrite (B ax2 b2 (fun s => ascalar (SF (g s)))); [|intros i M; unfold P; rewrite mem_app, M; apply orb_true_r|exact H2].
    reflexivity.
Qed.

(** Adding up several. *)
Lemma adds_ok (L : float_laws) I X r used : forall (y : yarr) ax b (f : asg -> F) (ys : list yarr) (os : list (list nat * (asg -> F))),
  yok X r y [b] -> operand_ok N I used [] (mkOperand ax KFloat b (fun s => ascalar (SF (f s)))) ->
  Forall2 (fun y o => exists b, yok X r y [b] /\ operand_ok N I used [] (mkOperand (fst o) KFloat b (fun s => ascalar (SF (snd o s))))) ys os ->
  exists b', yok X r (fold_left (ybin BAdd) ys y) [b'] /\
    operand_ok N I used [] (mkOperand (ax ++ concat (map fst os)) KFloat b'
      (fun s => ascalar (SF (fadd (f s) (suml (map (fun o => snd o s) os)))))).
Proof.
  intros y ax b f ys. revert y ax b f. induction ys as [|y' ys IH]; intros y ax b f os Y O F; inversion F; subst.
  - exists b. split; auto. cbn [map concat suml fold_right]. rewrite app_nil_r. unfold operand_ok in *. cbn [o_ax o_kind o_arr o_fam] in *.
    eapply frep_ext; [| |exact O]; auto. intros s Hs. cbv beta. do 2 f_equal. rewrite (Radd_comm (f_ring L)), (Radd_0_l (f_ring L)). auto.
  - destruct H1 as (b1 & Y1 & O1). destruct (add_ok _ _ _ _ _ _ _ _ O O1) as (b2 & HB & O2).
    destruct (IH (ybin BAdd y y') _ b2 _ _ (yok_bin _ _ _ _ _ _ _ _ _ Y Y1 HB) O2 H3) as (b3 & Y3 & O3).
    exists b3. split; [exact Y3|]. cbn [map concat suml fold_right]. rewrite app_assoc.
    unfold operand_ok in *. cbn [o_ax o_kind o_arr o_fam] in *. eapply frep_ext; [| |exact O3]; auto.
    intros s Hs. cbv beta. do 2 f_equal. rewrite (Radd_assoc (f_ring L)). reflexivity.
Qed.
End Add.

(** *** Letters *)
Section Ein.
Context {FO : FloatOps} {EX : Externs} {PO : PadOps}.

Definition inj_on (f : nat -> nat) (l : list nat) : Prop := forall x y, In x l -> In y l -> f x = f y -> x = y.

Lemma mem_map_inj f l x : inj_on f (x :: l) -> mem (f x) (map f l) = mem x l.
Proof.
  intros H. destruct (mem x l) eqn:Q.
  - apply mem_In. apply in_map. apply mem_In; auto.
  - apply not_true_iff_false. intros K. apply mem_In, in_map_iff in K as (y & Q' & Hy). apply H in Q'; [|right; auto|left; auto].
    subst. apply mem_In in Hy. congruence.
Qed.
Lemma inj_sub f l l' : incl l l' -> inj_on f l' -> inj_on f l.
Proof. intros H HI x y Hx Hy. apply HI; auto. Qed.
Lemma dedup_map f l : inj_on f l -> dedup (map f l) = map f (dedup l).
Proof.
  induction l as [|x l IH]; simpl; auto. intros H. rewrite mem_map_inj by auto.
  rewrite IH by (eapply inj_sub; [|exact H]; apply incl_tl, incl_refl). destruct (mem x l); auto.
Qed.
Lemma dedup_In l x : In x (dedup l) <-> In x l.
Proof.
  induction l as [|y l IH]; simpl; [tauto|]. destruct (mem y l) eqn:Q; simpl; rewrite IH; [|tauto].
  split; auto. intros [<-|H]; auto. apply mem_In; auto.
Qed.
Lemma dedup_NoDup l : NoDup (dedup l).
Proof.
  induction l as [|y l IH]; simpl; [constructor|]. destruct (mem y l) eqn:Q; auto. constructor; auto.
  rewrite dedup_In. intros K. apply mem_In in K. congruence.
Qed.
Lemma filter_map {A B} (f : A -> B) (g : B -> bool) l : filter g (map f l) = map f (filter (fun x => g (f x)) l).
Proof. induction l as [|x l IH]; simpl; auto. destruct (g (f x)); simpl; congruence. Qed.
Lemma pos_map f l x : inj_on f (x :: l) -> pos (f x) (map f l) = pos x l.
Proof.
  unfold pos. induction l as [|y l IH]; intros H; auto. cbn [map index_of].
  assert (Q : (f x =? f y) = (x =? y)).
  { destruct (Nat.eqb_spec x y) as [->|NE]; [apply Nat.eqb_refl|]. apply Nat.eqb_neq. intros K. apply NE. apply H; simpl; auto. }
  rewrite Q. destruct (x =? y); auto.
  assert (IH' : match index_of (f x) (map f l) with Some j => j | None => 0 end = match index_of x l with Some j => j | None => 0 end).
  { apply IH. eapply inj_sub; [|exact H]. intros z [->|Hz]; simpl; auto. }
  assert (M : mem (f x) (map f l) = mem x l) by (apply mem_map_inj; eapply inj_sub; [|exact H]; intros z [->|Hz]; simpl; auto).
  destruct (index_of (f x) (map f l)) as [j|] eqn:E1, (index_of x l) as [k|] eqn:E2; simpl; auto.
  - exfalso. apply index_of_None in E2. apply E2. apply mem_In. rewrite <- M. apply mem_In.
    apply index_of_Some in E1 as [L1 <-]. apply nth_In. auto.
  - exfalso. apply index_of_None in E1. apply E1. apply mem_In. rewrite M. apply mem_In.
    apply index_of_Some in E2 as [L1 <-]. apply nth_In. auto.
Qed.

Lemma sets_notin is : forall ks s x, ~ In x is -> sets s is ks x = s x.
Proof.
  induction is as [|i is IH]; intros [|k ks] s x H; simpl; auto. rewrite IH by (intros K; apply H; right; auto).
  apply set_asg_neq. intros ->. apply H. left; auto.
Qed.
Lemma sets_nth is : forall ks s j, NoDup is -> length ks = length is -> j < length is -> sets s is ks (nth j is 0) = nth j ks 0.
Proof.
  induction is as [|i is IH]; intros [|k ks] s j ND HL Hj; simpl in *; try lia. inversion ND; subst. destruct j as [|j].
  - rewrite sets_notin by auto. apply set_asg_eq.
  - apply IH; auto; lia.
Qed.
Lemma sets_pos res inn s jdx x : NoDup (res ++ inn) -> length jdx = length inn -> In x (res ++ inn) ->
  nth (pos x (res ++ inn)) (map s res ++ jdx) 0 = sets s inn jdx x.
Proof.
  intros ND HL Hx. destruct (pos_spec _ _ Hx) as [P1 P2]. set (p := pos x (res ++ inn)) in *. rewrite app_length in P1.
  destruct (Nat.lt_ge_cases p (length res)) as [Q|Q].
  - rewrite app_nth1 in P2 by auto. rewrite app_nth1 by (rewrite map_length; auto).
    rewrite (nth_map_lt' s res p 0) by auto. rewrite P2. symmetry. apply sets_notin.
    intros K. clear - ND K P2 Q. assert (In x res) by (rewrite <- P2; apply nth_In; auto). clear P2 Q.
    induction res as [|y res IH]; [destruct H|]. simpl in *. inversion ND; subst. destruct H as [->|H]; auto.
    apply H2. apply in_or_app; auto.
  - rewrite app_nth2 in P2 by auto. rewrite app_nth2 by (rewrite map_length; auto). rewrite map_length.
    rewrite <- P2. symmetry. apply sets_nth; [eapply NoDup_app_r; eauto|auto|lia].
Qed.

Variable N : nat -> nat.
Variable L : float_laws.

Lemma fsum_suml l : fsum l = suml l.
Proof. destruct l as [|x l]; auto. cbn [fsum]. apply (fold_left_add L). Qed.
Lemma fprod_prodl l : fprod l = prodl l.
Proof. destruct l as [|x l]; auto. cbn [fprod]. apply (fold_left_mul L). Qed.

Lemma suml_flat {A} (f : A -> list F) l : suml (flat_map f l) = suml (map (fun x => suml (f x)) l).
Proof. induction l as [|x l IH]; simpl; auto. rewrite (suml_app L), IH. reflexivity. Qed.

Lemma isum_all is : forall g s, suml (map (fun jdx => g (sets s is jdx)) (all_idx (map N is))) = isum N is g s.
Proof.
  induction is as [|i is IH]; intros g s.
  - simpl. rewrite (Radd_comm (f_ring L)). apply (Radd_0_l (f_ring L)).
  - cbn [map all_idx isum]. rewrite flat_map_concat_map, concat_map, map_map, <- flat_map_concat_map, suml_flat.
    rewrite <- (suml_seq L). f_equal. apply map_ext. intros k. rewrite map_map. cbn [sets]. apply IH.
Qed.

Definition eop : Type := (list nat * arr * (asg -> F))%type.
Definition eax (o : eop) := fst (fst o).
Definition earr (o : eop) := snd (fst o).
Definition efam (o : eop) := snd o.
Definition eop_ok (I : list nat) (o : eop) : Prop :=
  frep N I all_axes (eax o) [] KFloat (earr o) (fun s => ascalar (SF (efam o s))).

(** The indices that are summed over. *)
Definition inner_of (axs : list (list nat)) (res : list nat) : list nat :=
  filter (fun x => negb (mem x res)) (dedup (concat axs)).

Theorem einsum_ok I ops letter res :
  let axs := map eax ops in
  inj_on letter (concat axs) -> Forall (eop_ok I) ops -> incl (concat axs) I -> NoDup res -> incl res (concat axs) ->
  exists b, nd_einsum (map (map letter) axs, map letter res) (map earr ops) = Ok b /\ ashape b = map N res /\
    frep N I all_axes res [] KFloat b
      (fun s => ascalar (SF (isum N (inner_of axs res) (fun s' => prodl (map (fun o => efam o s') ops)) s))).
Proof.
  intros axs INJ HO HI ND HR. set (inn := inner_of axs res).
  assert (SHP : forall o, In o ops -> ashape (earr o) = map N (eax o)).
  { intros o Ho. rewrite Forall_forall in HO. rewrite (fr_shape _ _ _ _ _ _ _ _ (HO o Ho)), app_nil_r. apply map_ext. auto. }
  assert (LS : letter_sizes (map (map letter) axs, map letter res) (map earr ops) = map (fun x => (letter x, N x)) (concat axs)).
  { unfold letter_sizes, axs. cbn [fst]. clear - SHP. induction ops as [|o l IH]; auto. cbn [map combine flat_map concat fst snd].
    rewrite map_app, <- IH by (intros; apply SHP; right; auto). f_equal. rewrite SHP by (left; auto).
    generalize (eax o). induction l0; simpl; congruence. }
  assert (LZ : forall x, In x (concat axs) -> letter_size (map (fun x => (letter x, N x)) (concat axs)) (letter x) = N x).
  { intros x Hx. unfold letter_size. revert Hx INJ. clear. generalize (concat axs). induction l as [|y l IH]; intros Hx INJ; [destruct Hx|].
    cbn [map find fst]. destruct (Nat.eqb_spec (letter y) (letter x)) as [Q|Q].
    - apply INJ in Q; auto; [subst; auto|left; auto].
    - destruct Hx as [->|Hx]; [congruence|]. apply IH; auto. eapply inj_sub; [|exact INJ]. apply incl_tl, incl_refl. }
  assert (FST : map fst (map (fun x => (letter x, N x)) (concat axs)) = map letter (concat axs)).
  { rewrite map_map. apply map_ext. auto. }
  assert (INN : filter (fun c => negb (mem c (map letter res))) (dedup (map letter (concat axs))) = map letter inn).
  { rewrite dedup_map by auto. rewrite filter_map. f_equal. unfold inn, inner_of. apply filter_ext_in. intros x Hx. rewrite dedup_In in Hx.
    f_equal. apply mem_map_inj. eapply inj_sub; [|exact INJ]. intros z [<-|Hz]; auto. }
  assert (II : incl inn (concat axs)).
  { intros x Hx. apply filter_In in Hx as [Hx _]. apply dedup_In. auto. }
  assert (NDI : NoDup (res ++ inn)).
  { assert (NI : NoDup inn) by (apply NoDup_filter, dedup_NoDup).
    assert (DJ : forall x, In x res -> ~ In x inn).
    { intros x Hx K. apply filter_In in K as [_ K]. apply mem_In in Hx. rewrite Hx in K. discriminate. }
    apply NoDup_app_disj; auto. }
  assert (ALLIN : forall x, In x (concat axs) -> In x (res ++ inn)).
  { intros x Hx. apply in_or_app. destruct (mem x res) eqn:Q; [left; apply mem_In; auto|right]. apply filter_In.
    split; [apply dedup_In; auto|rewrite Q; auto]. }
  unfold nd_einsum. cbn [fst snd]. rewrite LS.
  replace (length (map (map letter) axs) =? length (map earr ops)) with true
    by (symmetry; apply Nat.eqb_eq; unfold axs; rewrite !map_length; auto).
  replace (forallb (fun p => length (fst p) =? arank (snd p)) (combine (map (map letter) axs) (map earr ops))) with true.
  2:{ symmetry. apply forallb_forall. intros p Hp. unfold axs in Hp. rewrite map_map in Hp.
      assert (exists o, In o ops /\ p = (map letter (eax o), earr o)) as (o & Ho & ->).
      { clear - Hp. induction ops as [|o l IH]; [destruct Hp|]. destruct Hp as [<-|Hp]; [exists o; split; auto; left; auto|].
        destruct (IH Hp) as (o' & ? & ?). exists o'. split; auto. right; auto. }
      cbn [fst snd]. apply Nat.eqb_eq. unfold arank. rewrite (SHP o Ho), !map_length. auto. }
  replace (forallb _ (map (fun x => (letter x, N x)) (concat axs))) with true.
  2:{ symmetry. apply forallb_forall. intros p Hp. apply in_map_iff in Hp as (x & <- & Hx). cbn [fst snd]. rewrite LZ by auto.
      apply Nat.eqb_refl. }
  rewrite FST.
  replace (forallb (fun c => mem c (map letter (concat axs))) (map letter res)) with true.
  2:{ symmetry. apply forallb_forall. intros c Hc. apply in_map_iff in Hc as (x & <- & Hx). apply mem_In, in_map. auto. }
  replace (nodupb (map letter res)) with true.
  2:{ symmetry. apply nodupb_NoDup. apply NoDup_map_on; auto. }
  replace (forallb (fun a => kind_eqb (akind a) KFloat) (map earr ops)) with true.
  2:{ symmetry. apply forallb_forall. intros a Ha. apply in_map_iff in Ha as (o & <- & Ho). rewrite Forall_forall in HO.
      rewrite (fr_kind _ _ _ _ _ _ _ _ (HO o Ho)). reflexivity. }
  cbn [guard bind]. rewrite INN.
  assert (SR : map (letter_size (map (fun x => (letter x, N x)) (concat axs))) (map letter res) = map N res).
  { rewrite map_map. apply map_ext_in. intros x Hx. apply LZ. auto. }
  assert (SI' : map (letter_size (map (fun x => (letter x, N x)) (concat axs))) (map letter inn) = map N inn).
  { rewrite map_map. apply map_ext_in. intros x Hx. apply LZ. auto. }
  rewrite SR, SI'. eexists. split; [reflexivity|]. split; [reflexivity|]. constructor.
  - apply tab_wf. intros idx _. reflexivity.
  - reflexivity.
  - simpl. rewrite app_nil_r. apply map_ext. auto.
  - intros s Hs. split; [apply ascalar_wf|split; reflexivity].
  - intros s Hs HB p Hp. inversion Hp; subst p. rewrite app_nil_r.
    replace (map (fun i => if all_axes i then s i else 0) res) with (map s res) by (apply map_ext; auto).
    rewrite get_tab.
    2:{ pose proof (inb_assign N all_axes res s HB) as B. exact B. }
    match goal with |- _ = get (ascalar ?x) [] => change (get (ascalar x) []) with x end.
    f_equal. rewrite fsum_suml, <- isum_all. f_equal. apply map_ext_in. intros jdx Hj. apply all_idx_inb in Hj.
    rewrite fprod_prodl. f_equal. unfold axs. rewrite map_map.
    assert (LJ : length jdx = length inn).
    { unfold inb in Hj. apply Forall2_len in Hj. rewrite map_length in Hj. auto. }
    set (s' := sets s inn jdx).
    assert (JB : forall x, In x inn -> s' x < N x).
    { intros x Hx. destruct (In_nth _ _ 0 Hx) as (j & Hjl & <-). unfold s'. rewrite sets_nth; auto; [|eapply NoDup_app_r; eauto].
      unfold inb in Hj. pose proof (Forall2_nth _ _ _ j 0 0 Hj ltac:(lia)) as Q. rewrite (nth_map_lt' N inn j 0 0) in Q by auto. exact Q. }
    assert (WS : wv N I s').
    { intros i Hi. unfold s'. destruct (in_dec Nat.eq_dec i inn) as [K|K]; [specialize (JB i K); unfold s' in JB; lia|].
      rewrite sets_notin by auto. apply Hs; auto. }
    assert (CO : combine (map (fun x => map letter (eax x)) ops) (map earr ops) = map (fun o => (map letter (eax o), earr o)) ops).
    { clear. induction ops; simpl; congruence. }
    rewrite CO, map_map. apply map_ext_in. intros o Ho. cbn [fst snd]. rewrite map_map.
    assert (IO : forall x, In x (eax o) -> In x (concat axs)).
    { intros x Hx. apply in_concat. exists (eax o). split; auto. apply in_map. auto. }
    assert (IDX : map (fun x => nth (pos (letter x) (map letter res ++ map letter inn)) (map s res ++ jdx) 0) (eax o) = map s' (eax o)).
    { apply map_ext_in. intros x Hx. rewrite <- map_app, pos_map.
      - apply sets_pos; auto.
      - eapply inj_sub; [|exact INJ]. intros z [<-|Hz]; auto. apply in_app_or in Hz as [Hz|Hz]; auto. }
    rewrite IDX. rewrite Forall_forall in HO. pose proof (HO o Ho) as FR.
    pose proof (fr_get _ _ _ _ _ _ _ _ FR s' WS) as G. rewrite <- (app_nil_r (map s' (eax o))).
    replace (map s' (eax o)) with (map (fun i => if all_axes i then s' i else 0) (eax o)) by (apply map_ext; auto).
    rewrite G.
    + reflexivity.
    + intros i Hi _. destruct (in_dec Nat.eq_dec i inn) as [K|K]; [auto|]. unfold s'. rewrite sets_notin by auto. apply HB; auto.
      specialize (ALLIN i (IO i Hi)). apply in_app_or in ALLIN as [Q|Q]; auto. tauto.
    + constructor.
Qed.
End Ein.
