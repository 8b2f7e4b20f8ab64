(** Vectorisation along an index, elementwise operations with broadcasting. *)
From Verif Require Import Base Scalar Tensor Types Sym Phi Den Typing NdOps NdFacts Yarr Axial AxialFacts.

Definition set_asg (s : asg) (i k : nat) : asg := fun j => if j =? i then k else s j.

Lemma set_asg_eq s i k : set_asg s i k i = k.
Proof. unfold set_asg. rewrite Nat.eqb_refl. auto. Qed.
Lemma set_asg_neq s i k j : j <> i -> set_asg s i k j = s j.
Proof. intros H. unfold set_asg. apply Nat.eqb_neq in H. rewrite H. auto. Qed.
Lemma set_asg_same s i : forall j, set_asg s i (s i) j = s j.
Proof. intros j. unfold set_asg. destruct (j =? i) eqn:E; auto. apply Nat.eqb_eq in E. congruence. Qed.

(** Permutation of the leading axes. *)
Lemma swap_perm_length r a b : length (swap_perm r a b) = r.
Proof. unfold swap_perm. rewrite map_length, seq_length. auto. Qed.

Lemma swap_perm_nth r a b k : k < r ->
  nth k (swap_perm r a b) 0 = if k =? a then b else if k =? b then a else k.
Proof. intros H. unfold swap_perm. rewrite nth_map_seq by auto. reflexivity. Qed.

Lemma swap_perm_perm r a b : a < r -> b < r -> is_perm (swap_perm r a b) r = true.
Proof.
  intros Ha Hb. unfold is_perm. rewrite swap_perm_length, Nat.eqb_refl. simpl.
  apply forallb_forall. intros k Hk. apply in_seq in Hk. apply mem_In. unfold swap_perm.
  apply in_map_iff. exists (if k =? a then b else if k =? b then a else k).
  destruct (k =? a) eqn:E1; [|destruct (k =? b) eqn:E2].
  - apply Nat.eqb_eq in E1. subst k. split; [|apply in_seq; lia].
    destruct (b =? a) eqn:E; [apply Nat.eqb_eq in E; auto|]. rewrite Nat.eqb_refl. auto.
  - apply Nat.eqb_eq in E2. subst k. split; [|apply in_seq; lia]. rewrite Nat.eqb_refl. auto.
  - rewrite E1, E2. split; auto. apply in_seq; lia.
Qed.

(** The named axes after closing over the axis at position [a]: the last one
    takes its place. *)
Definition close_axes (ax : list nat) (r a : nat) : list nat :=
  map (fun k => nth (nth k (swap_perm r a (length ax - 1)) 0) ax 0) (seq 0 (length ax - 1)).

Lemma swap_map (f : nat -> nat) ax rest a : a < length ax ->
  map (fun p => nth p (map f ax ++ rest) 0) (swap_perm (length ax + length rest) a (length ax - 1))
  = map f (close_axes ax (length ax + length rest) a) ++ f (nth a ax 0) :: rest.
Proof.
  intros Ha. set (r := length ax + length rest).
  assert (E : seq 0 r = seq 0 (length ax - 1) ++ [length ax - 1] ++ seq (length ax) (length rest)).
  { unfold r. replace (length ax + length rest) with ((length ax - 1) + (1 + length rest)) by lia.
    rewrite seq_app. f_equal. rewrite seq_app. cbn [seq Nat.add app]. f_equal. f_equal. lia. }
  unfold swap_perm at 1. rewrite E, !map_app. cbn [map app]. f_equal; [|f_equal].
  - unfold close_axes. rewrite !map_map. apply map_ext_in. intros k Hk. apply in_seq in Hk.
    rewrite swap_perm_nth by (unfold r; lia).
    assert (L : (if k =? a then length ax - 1 else if k =? length ax - 1 then a else k) < length ax)
      by (destruct (k =? a), (k =? length ax - 1); lia).
    rewrite app_nth1 by (rewrite map_length; exact L). apply nth_map_lt'; exact L.
  - destruct (length ax - 1 =? a) eqn:X.
    + apply Nat.eqb_eq in X. rewrite app_nth1 by (rewrite map_length; lia).
      rewrite X. apply nth_map_lt'; lia.
    + rewrite Nat.eqb_refl. rewrite app_nth1 by (rewrite map_length; lia). apply nth_map_lt'; lia.
  - transitivity (map (fun p => nth p (map f ax ++ rest) 0) (seq (length ax) (length rest))).
    + rewrite map_map. apply map_ext_in. intros k Hk. apply in_seq in Hk.
      destruct (k =? a) eqn:X1; [apply Nat.eqb_eq in X1; lia|].
      destruct (k =? length ax - 1) eqn:X2; [apply Nat.eqb_eq in X2; lia|]. auto.
    + rewrite <- (map_length f ax) at 1. apply map_nth_seq_r.
Qed.

Lemma close_axes_In ax r a x : NoDup ax -> a < length ax -> length ax <= r ->
  In x (close_axes ax r a) -> In x ax /\ x <> nth a ax 0.
Proof.
  intros ND Ha Hr H. unfold close_axes in H. apply in_map_iff in H as (k & <- & Hk). apply in_seq in Hk.
  rewrite swap_perm_nth by lia. split.
  - apply nth_In. destruct (k =? a), (k =? length ax - 1); lia.
  - intros E. apply (proj1 (NoDup_nth ax 0) ND) in E; [|destruct (k =? a), (k =? length ax - 1); lia|auto].
    destruct (k =? a) eqn:X1; [|destruct (k =? length ax - 1) eqn:X2].
    + apply Nat.eqb_eq in X1. lia.
    + apply Nat.eqb_eq in X2. lia.
    + apply Nat.eqb_neq in X1. lia.
Qed.

Section AxialOps.
Context {FO : FloatOps} {EX : Externs} {PO : PadOps}.
Variable N : nat -> nat.

Lemma wv_set I i k s : wv N I s -> k < Nat.max 1 (N i) -> wv N (i :: I) (set_asg s i k).
Proof.
  intros H Hk j Hj. unfold set_asg. destruct (j =? i) eqn:E.
  - apply Nat.eqb_eq in E. subst. auto.
  - destruct Hj as [->|Hj]; [rewrite Nat.eqb_refl in E; discriminate|]. apply H; auto.
Qed.

Lemma wv_sub I I' s : incl I I' -> wv N I' s -> wv N I s.
Proof. intros H W i Hi. apply W; auto. Qed.

(** Closing over the last named axis. *)
Lemma rep_close I i ax rest k b A A' : ~ In i I -> ~ In i ax -> NoDup ax -> incl ax I ->
  frep N (i :: I) all_axes (ax ++ [i]) rest k b A ->
  (forall s, wv N I s -> arr_wf (A' s) /\ akind (A' s) = k /\ ashape (A' s) = N i :: rest /\
     forall j p, j < N i -> inb rest p -> get (A' s) (j :: p) = get (A (set_asg s i j)) p) ->
  frep N I all_axes ax (N i :: rest) k b A'.
Proof.
  intros HiI Hi ND IN F H. constructor.
  - apply F.
  - apply F.
  - rewrite (fr_shape _ _ _ _ _ _ _ _ F), map_app, <- app_assoc. reflexivity.
  - intros s Hs. destruct (H s Hs) as (W & K & S & _). auto.
  - intros s Hs Hlt p Hp. destruct p as [|j p]; [inversion Hp|]. apply inb_cons in Hp as [Hj Hp].
    destruct (H s Hs) as (_ & _ & _ & G). rewrite G by auto.
    rewrite <- (fr_get _ _ _ _ _ _ _ _ F (set_asg s i j)); auto.
    + rewrite map_app, <- app_assoc. cbn [map app all_axes]. rewrite set_asg_eq. f_equal. f_equal.
      apply map_ext_in. intros x Hx. rewrite set_asg_neq; auto. intros ->. auto.
    + apply wv_set; auto. lia.
    + intros x Hx _. apply in_app_iff in Hx as [Hx|[<-|[]]].
      * rewrite set_asg_neq by (intros ->; auto). apply Hlt; auto.
      * rewrite set_asg_eq. auto.
Qed.

Lemma absent_snoc ax i : ~ In i ax -> forall p, absent (fun x => mem x ax) p (ax ++ [i]) = [p + length ax].
Proof.
  intros Hi. apply mem_not_In in Hi.
  assert (G : forall l p, incl l ax -> absent (fun x => mem x ax) p (l ++ [i]) = [p + length l]).
  { induction l as [|y l IH]; simpl; intros p Hl.
    - rewrite Hi. f_equal. lia.
    - assert (M : mem y ax = true) by (apply mem_In, Hl; left; auto). rewrite M, IH; [f_equal; lia|].
      intros x Hx. apply Hl. right; auto. }
  intros p. apply G. intros x; auto.
Qed.

Lemma restrict_snoc ax i : ~ In i ax -> restrict ax (ax ++ [i]) = ax.
Proof.
  intros Hi. apply mem_not_In in Hi. unfold restrict. rewrite filter_app. simpl. rewrite Hi, app_nil_r.
  assert (G : forall l, incl l ax -> filter (fun x => mem x ax) l = l).
  { induction l as [|y l IH]; simpl; intros Hl; auto.
    assert (M : mem y ax = true) by (apply mem_In, Hl; left; auto). rewrite M. f_equal. apply IH.
    intros x Hx. apply Hl. right; auto. }
  apply G. intros x; auto.
Qed.

(** [Axial.along] *)
Theorem along_ok I X r ax y i size a' rest k b A A' :
  along (mkAxial ax y) i size = Ok a' -> ~ In i I -> NoDup ax -> incl ax (i :: I) ->
  yok X r y [b] -> frep N (i :: I) all_axes ax rest k b A ->
  yok X r size [ascalar (SI (Z.of_nat (N i)))] ->
  (forall s, wv N I s -> arr_wf (A' s) /\ akind (A' s) = k /\ ashape (A' s) = N i :: rest /\
     forall j p, j < N i -> inb rest p -> get (A' s) (j :: p) = get (A (set_asg s i j)) p) ->
  exists b', yok X r (ax_expr a') [b'] /\ NoDup (ax_axes a') /\ incl (ax_axes a') I /\
    frep N I all_axes (ax_axes a') (N i :: rest) k b' A'.
Proof.
  intros H HiI ND IN Hy F Hs HA. unfold along in H. cbn [ax_axes ax_expr] in H.
  pose proof (frep_rank _ _ _ _ _ _ _ _ F) as R.
  assert (ER : erank y = Ok (length ax + length rest)).
  { unfold erank. rewrite (proj2 Hy). cbn. f_equal. exact R. }
  rewrite ER in H. cbn [bind] in H. apply bind_ok in H as (u & _ & H).
  destruct (index_of i ax) as [a|] eqn:E.
  - unfold mk_axial in H. inv_bind. apply index_of_Some in E as [Ha Hn]. cbn [ax_axes ax_expr].
    fold (close_axes ax (length ax + length rest) a) in *.
    set (ax' := close_axes ax (length ax + length rest) a) in *.
    apply nodupb_NoDup in Hb.
    destruct (transpose_spec (swap_perm (length ax + length rest) a (length ax - 1)) b (fr_wf _ _ _ _ _ _ _ _ F))
      as (b' & T & W & K & S & G).
    { rewrite R. apply swap_perm_perm; lia. }
    assert (M : forall (f : nat -> nat) l p, length p = length rest ->
      map (fun q => nth q (map (fun i => if all_axes i then f i else l) ax ++ p) 0)
          (swap_perm (length ax + length rest) a (length ax - 1))
      = map (fun i => if all_axes i then f i else l) (ax' ++ [i]) ++ p).
    { intros f l p Lp. unfold ax'. rewrite <- Lp. etransitivity; [apply (swap_map f); auto|].
      rewrite map_app, <- app_assoc, Hn. reflexivity. }
    assert (NI : forall x, In x ax' -> In x ax /\ x <> i).
    { intros x Hx. unfold ax' in Hx. apply close_axes_In in Hx; auto; [|lia]. rewrite Hn in Hx. auto. }
    assert (F' : frep N (i :: I) all_axes (ax' ++ [i]) rest k b' A).
    { constructor; auto.
      - rewrite K. apply F.
      - rewrite S, (fr_shape _ _ _ _ _ _ _ _ F). apply (M N 1). auto.
      - apply F.
      - intros s Hw Hlt p Hp. rewrite <- (M s 0 p) by (apply inb_length in Hp; auto).
        assert (Hlt' : forall x, In x ax -> all_axes x = true -> s x < N x).
        { intros x Hx _. apply Hlt; auto.
          assert (HP := swap_perm_perm (length ax + length rest) a (length ax - 1) ltac:(lia) ltac:(lia)).
          (* x occurs in ax' ++ [i] *)
          destruct (Nat.eq_dec x i) as [->|Ne]; [apply in_or_app; right; left; auto|].
          apply in_or_app; left. destruct (In_nth _ _ 0 Hx) as (q & Hq & Eq).
          unfold ax', close_axes. apply in_map_iff.
          assert (Hqa : q <> a) by congruence.
          exists (if q =? length ax - 1 then a else q).
          destruct (q =? length ax - 1) eqn:X1.
          - apply Nat.eqb_eq in X1. split; [|apply in_seq; lia].
            rewrite swap_perm_nth by lia. rewrite Nat.eqb_refl. congruence.
          - apply Nat.eqb_neq in X1. split; [|apply in_seq; lia].
            rewrite swap_perm_nth by lia. apply Nat.eqb_neq in X1. rewrite X1.
            apply Nat.eqb_neq in Hqa. rewrite Hqa. auto. }
        rewrite G; [apply (fr_get _ _ _ _ _ _ _ _ F); auto|].
        apply (frep_inb _ _ _ _ _ _ _ _ s p F); auto. }
    exists b'. split; [eapply yok_transpose; eauto|]. split; [auto|]. split.
    + intros x Hx. destruct (NI x Hx) as [H1 H2]. apply IN in H1. destruct H1; [congruence|auto].
    + eapply rep_close; eauto.
      * intros Hx. apply NI in Hx. tauto.
      * intros x Hx. destruct (NI x Hx) as [H1 H2]. apply IN in H1. destruct H1; [congruence|auto].
  - apply index_of_None in E. unfold mk_axial in H. inv_bind. cbn [ax_axes ax_expr].
    assert (IN' : incl ax I).
    { intros x Hx. destruct (IN x Hx) as [<-|]; [tauto|auto]. }
    assert (ND' : NoDup (ax ++ [i])).
    { apply NoDup_Add with (a := i) (l := ax); [|split; auto].
      rewrite <- (app_nil_r ax) at 1. apply Add_app. }
    assert (F0 : frep N (i :: I) all_axes (restrict ax (ax ++ [i])) rest k b A)
      by (rewrite restrict_snoc; auto).
    destruct (frep_unsqueeze _ _ _ _ _ _ _ _ F0) as (b1 & U1 & F1).
    rewrite absent_snoc in U1 by auto. cbn [Nat.add] in U1.
    assert (Hl : length ax < length (ax ++ [i])) by (rewrite app_length; simpl; lia).
    assert (Hnth : nth (length ax) (ax ++ [i]) 0 = i) by (rewrite app_nth2, Nat.sub_diag; auto).
    assert (Hm : mem (nth (length ax) (ax ++ [i]) 0) ax = false) by (rewrite Hnth; apply mem_not_In; auto).
    destruct (frep_repeat _ _ _ _ _ _ _ _ (length ax) ND' Hl Hm F1) as (b2 & R2 & F2).
    rewrite Hnth in R2, F2.
    exists b2. split; [eapply yok_repeat; eauto; eapply yok_unsqueeze; eauto|].
    split; [auto|]. split; [auto|]. apply rep_close with (A := A); auto.
    eapply frep_ext; [| |exact F2]; auto. intros x Hx. cbv beta. unfold all_axes.
    apply in_app_iff in Hx as [Hx|[<-|[]]].
    + apply mem_In in Hx. rewrite Hx. auto.
    + rewrite Nat.eqb_refl, orb_true_r. auto.
Qed.

(** * Broadcasting *)

Lemma zip_bdim_map (f g h : nat -> nat) l : (forall i, In i l -> bdim (f i) (g i) = Some (h i)) ->
  zip_bdim (map f l) (map g l) = Ok (map h l).
Proof.
  induction l as [|x l IH]; simpl; intros H; auto. rewrite H by auto. cbn. rewrite IH by auto. reflexivity.
Qed.

Lemma pad1_trim ax used : 
  pad1 (length used) (map (fun i => if mem i ax then N i else 1) (trim ax used))
  = map (fun i => if mem i ax then N i else 1) used.
Proof.
  unfold pad1. rewrite map_length. destruct (trim_suffix ax used) as (pre & E & H).
  transitivity (map (fun i => if mem i ax then N i else 1) pre ++
                map (fun i => if mem i ax then N i else 1) (trim ax used)).
  - f_equal. replace (length used - length (trim ax used)) with (length pre).
    + clear E. induction pre as [|x pre IH]; simpl; auto. rewrite H by (left; auto). f_equal. apply IH.
      intros y Hy. apply H. right; auto.
    + rewrite E at 1. rewrite app_length. lia.
  - rewrite <- map_app, <- E. auto.
Qed.

Record operand : Type := mkOperand { o_ax : list nat; o_kind : kind; o_arr : arr; o_fam : asg -> arr }.

Definition operand_ok (I used : list nat) (rest : list nat) (o : operand) : Prop :=
  frep N I (fun i => mem i (o_ax o)) (trim (o_ax o) used) rest (o_kind o) (o_arr o) (o_fam o).

Lemma zip_all_ops used l :
  zip_all (length used) (map (fun ax => map (fun i => if mem i ax then N i else 1) (trim ax used)) l)
  = Ok (map (fun i => if existsb (mem i) l then N i else 1) used).
Proof.
  induction l as [|ax l IH]; simpl.
  - f_equal. induction used; simpl; congruence.
  - rewrite IH. cbn [bind]. rewrite pad1_trim. apply zip_bdim_map. intros i Hi.
    destruct (mem i ax), (existsb (mem i) l); simpl; unfold bdim; rewrite ?Nat.eqb_refl; auto.
    + destruct (N i =? 1) eqn:E; auto.
    + destruct (1 =? N i) eqn:E; auto. apply Nat.eqb_eq in E. congruence.
Qed.

Lemma list_max_eq l n : (forall k, In k l -> k <= n) -> (n = 0 \/ In n l) -> list_max l = n.
Proof.
  intros H1 H2. apply Nat.le_antisymm.
  - apply list_max_le. apply Forall_forall. auto.
  - destruct H2 as [->|H2]; [lia|].
    assert (G : list_max l <= list_max l) by lia. apply list_max_le in G. rewrite Forall_forall in G. auto.
Qed.

Lemma trim_length ax used : length (trim ax used) <= length used.
Proof. destruct (trim_suffix ax used) as (pre & E & _). rewrite E at 2. rewrite app_length. lia. Qed.

Lemma trim_ranks used (l : list (list nat)) :
  (forall x, In x used -> exists ax, In ax l /\ In x ax) ->
  list_max (map (fun ax => length (trim ax used)) l) = length used.
Proof.
  intros H. apply list_max_eq.
  - intros k Hk. apply in_map_iff in Hk as (ax & <- & _). apply trim_length.
  - destruct used as [|x used]; [left; auto|right]. destruct (H x (or_introl eq_refl)) as (ax & H1 & H2).
    apply in_map_iff. exists ax. split; auto. simpl. apply mem_In in H2. rewrite H2. auto.
Qed.

Lemma bzip_assign ax into s rest p : inb rest p ->
  (forall i, In i into -> mem i ax = true -> s i < N i) ->
  bzip (map (fun i => if mem i ax then N i else 1) into ++ rest) (map s into ++ p)
  = map (fun i => if mem i ax then s i else 0) into ++ p.
Proof.
  intros Hp. induction into as [|x into IH]; simpl; intros H.
  - clear H. unfold inb in Hp. induction Hp as [|k d p rest Hk Hp IH]; simpl; auto. rewrite IH. f_equal.
    destruct (d =? 1) eqn:E; auto. apply Nat.eqb_eq in E. lia.
  - rewrite IH by auto. f_equal. destruct (mem x ax) eqn:E; [|reflexivity].
    specialize (H x (or_introl eq_refl) E). destruct (N x =? 1) eqn:E1; auto. apply Nat.eqb_eq in E1. lia.
Qed.

Lemma bidx_trim ax used s : (forall i, In i used -> s i < N i) ->
  bidx (map (fun i => if mem i ax then N i else 1) (trim ax used)) (map s used)
  = map (fun i => if mem i ax then s i else 0) (trim ax used).
Proof.
  intros H. unfold bidx. rewrite !map_length.
  assert (E : skipn (length used - length (trim ax used)) (map s used) = map s (trim ax used)).
  { destruct (trim_suffix ax used) as (pre & E & _). rewrite E at 1 3. rewrite app_length, map_app.
    replace (length pre + length (trim ax used) - length (trim ax used)) with (length (map s pre))
      by (rewrite map_length; lia).
    rewrite skipn_app, skipn_all, Nat.sub_diag. reflexivity. }
  rewrite E.
  pose proof (bzip_assign ax (trim ax used) s [] [] inb_nil) as B. rewrite !app_nil_r in B. apply B.
  intros i Hi _. apply H. eapply trim_incl; eauto.
Qed.

(** Elementwise operations on operands aligned without left padding. *)
Theorem ew_ok I kf sf used ops k (S : asg -> scalar) :
  NoDup used -> incl used I ->
  (forall x, In x used <-> exists ax, In ax (map o_ax ops) /\ In x ax) ->
  Forall (operand_ok I used []) ops ->
  kf (map o_kind ops) = Some k ->
  (forall ss s, sf ss = Some s -> kf (map skind ss) = Some (skind s)) ->
  (forall s, wv N I s -> sf (map (fun o => get (o_fam o s) []) ops) = Some (S s)) ->
  exists b, nd_ew kf sf (map o_arr ops) = Ok b /\ length (ashape b) = length used /\
    frep N I all_axes used [] k b (fun s => ascalar (S s)).
Proof.
  intros ND IN U HO HK HL HS.
  assert (SH : map ashape (map o_arr ops) =
               map (fun ax => map (fun i => if mem i ax then N i else 1) (trim ax used)) (map o_ax ops)).
  { rewrite !map_map. apply map_ext_in. intros o Ho. rewrite Forall_forall in HO. specialize (HO o Ho).
    rewrite (fr_shape _ _ _ _ _ _ _ _ HO), app_nil_r. reflexivity. }
  assert (BS : broadcast_shapes (map ashape (map o_arr ops)) = Ok (map N used)).
  { unfold broadcast_shapes. rewrite SH.
    assert (LM : list_max (map (@length nat)
       (map (fun ax => map (fun i => if mem i ax then N i else 1) (trim ax used)) (map o_ax ops))) = length used).
    { rewrite map_map. erewrite map_ext; [apply trim_ranks|intros ax; apply map_length].
      intros x Hx. apply U; auto. }
    rewrite LM, zip_all_ops. f_equal. apply map_ext_in. intros i Hi.
    assert (existsb (mem i) (map o_ax ops) = true) as ->; auto.
    apply existsb_exists. apply U in Hi as (ax & H1 & H2). exists ax. split; auto. apply mem_In; auto. }
  assert (KS : map akind (map o_arr ops) = map o_kind ops).
  { rewrite map_map. apply map_ext_in. intros o Ho. rewrite Forall_forall in HO. apply (HO o Ho). }
  unfold nd_ew. rewrite BS, KS, HK. cbn [bind of_opt]. eexists. split; [reflexivity|].
  split; [simpl; apply map_length|].
  assert (KS' : forall s, wv N I s -> skind (S s) = k).
  { intros s Hw. specialize (HL _ _ (HS s Hw)). rewrite map_map in HL.
    assert (E : map (fun o => skind (get (o_fam o s) [])) ops = map o_kind ops).
    { apply map_ext_in. intros o Ho. rewrite Forall_forall in HO.
      destruct (fr_mem _ _ _ _ _ _ _ _ (HO o Ho) s Hw) as (W & K & Sh). rewrite <- K. apply get_kind_any; auto. }
    rewrite E in HL. congruence. }
  constructor.
  - apply tab_wf. intros idx _. destruct (sf _) as [v|] eqn:E; [|destruct k; reflexivity].
    apply HL in E. rewrite map_map in E.
    assert (E' : map (fun x => skind (get x (bidx (ashape x) idx))) (map o_arr ops) = map o_kind ops).
    { rewrite map_map. apply map_ext_in. intros o Ho. rewrite Forall_forall in HO. specialize (HO o Ho).
      rewrite <- (fr_kind _ _ _ _ _ _ _ _ HO). apply get_kind_any. apply HO. }
    rewrite E' in E. congruence.
  - reflexivity.
  - simpl. rewrite app_nil_r. reflexivity.
  - intros s Hw. split; [apply ascalar_wf|]. split; [apply KS'; auto|reflexivity].
  - intros s Hw Hlt p Hp. inversion Hp; subst. rewrite app_nil_r.
    assert (Hlt' : forall i, In i used -> s i < N i) by (intros; apply Hlt; auto).
    rewrite get_tab.
    + assert (E : map (fun a => get a (bidx (ashape a) (map (fun i => if all_axes i then s i else 0) used)))
                      (map o_arr ops) = map (fun o => get (o_fam o s) []) ops).
      { rewrite map_map. apply map_ext_in. intros o Ho. rewrite Forall_forall in HO. specialize (HO o Ho).
        unfold operand_ok in HO.
        rewrite <- (fr_get _ _ _ _ _ _ _ _ HO s Hw) with (p := []).
        - rewrite (fr_shape _ _ _ _ _ _ _ _ HO), !app_nil_r. f_equal. apply (bidx_trim (o_ax o) used s). auto.
        - intros i Hi _. apply Hlt'. eapply trim_incl; eauto.
        - constructor. }
      rewrite E, (HS s Hw). reflexivity.
    + pose proof (inb_assign N all_axes used s Hlt) as B. exact B.
Qed.

End AxialOps.
