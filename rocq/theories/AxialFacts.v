(** Arrays with named leading axes represent families of arrays: alignment and
    vectorisation preserve the family (C17, C18). *)
From Verif Require Import Base Scalar Tensor Types Sym Phi Den Typing NdOps NdFacts Yarr Axial.

(** * Lists of axes *)

Lemma NoDup_map_on {A B} (f : A -> B) l :
  (forall x y, In x l -> In y l -> f x = f y -> x = y) -> NoDup l -> NoDup (map f l).
Proof.
  induction l as [|x l IH]; simpl; intros H ND; [constructor|]. inversion ND; subst. constructor.
  - intros Hi. apply in_map_iff in Hi as (y & E & Hy). apply H in E; auto. subst. auto.
  - apply IH; auto.
Qed.

Lemma NoDup_app_r {A} (l1 l2 : list A) : NoDup (l1 ++ l2) -> NoDup l2.
Proof. induction l1; simpl; auto. intros H. inversion H; auto. Qed.

Lemma align_add_In axes : forall seen x, In x (align_add seen axes) <-> In x seen \/ In x axes.
Proof.
  induction axes as [|y axes IH]; simpl; intros seen x; [tauto|]. rewrite IH.
  destruct (mem y seen) eqn:E.
  - apply mem_In in E. split; intros [H|H]; auto. destruct H as [<-|H]; auto.
  - rewrite in_app_iff. simpl. tauto.
Qed.

Lemma align_add_NoDup axes : forall seen, NoDup seen -> NoDup (align_add seen axes).
Proof.
  induction axes as [|y axes IH]; simpl; intros seen H; auto. apply IH.
  destruct (mem y seen) eqn:E; auto. apply mem_not_In in E.
  apply NoDup_Add with (a := y) (l := seen); [|split; auto].
  replace (seen ++ [y]) with (seen ++ y :: []) by auto. rewrite <- (app_nil_r seen) at 1. apply Add_app.
Qed.

Lemma alignment_In args x : In x (alignment args) <-> exists axes, In axes args /\ In x axes.
Proof.
  unfold alignment.
  assert (G : forall seen, In x (fold_left align_add args seen) <->
              In x seen \/ exists axes, In axes args /\ In x axes).
  { induction args as [|a args IH]; simpl; intros seen.
    - split; [tauto|]. intros [H|(axes & [] & _)]; auto.
    - rewrite IH, align_add_In. split.
      + intros [[H|H]|(axes & H & H')]; eauto 6.
      + intros [H|(axes & [<-|H] & H')]; eauto 6. }
  rewrite G. simpl. tauto.
Qed.

Lemma alignment_NoDup args : NoDup (alignment args).
Proof.
  unfold alignment.
  assert (G : forall seen, NoDup seen -> NoDup (fold_left align_add args seen)).
  { induction args as [|a args IH]; simpl; intros seen H; auto. apply IH. apply align_add_NoDup; auto. }
  apply G. constructor.
Qed.

Lemma alignment_same ax : NoDup ax -> alignment [ax] = ax.
Proof.
  intros ND. unfold alignment. simpl.
  assert (G : forall seen, NoDup (seen ++ ax) -> align_add seen ax = seen ++ ax).
  { clear ND. induction ax as [|y ax IH]; simpl; intros seen H; [rewrite app_nil_r; auto|].
    assert (E : mem y seen = false).
    { apply mem_not_In. intros Hi. apply NoDup_remove_2 in H. apply H. apply in_or_app; auto. }
    rewrite E, IH; rewrite <- app_assoc; auto. }
  apply G. auto.
Qed.

(** The axes of [into] that are among [axes]. *)
Definition restrict (axes into : list nat) : list nat := filter (fun x => mem x axes) into.

Lemma restrict_In axes into x : In x (restrict axes into) <-> In x into /\ In x axes.
Proof. unfold restrict. rewrite filter_In, mem_In. tauto. Qed.

Lemma restrict_length axes into : NoDup axes -> NoDup into -> incl axes into ->
  length (restrict axes into) = length axes.
Proof.
  intros N1 N2 I. apply Nat.le_antisymm.
  - apply NoDup_incl_length; [apply NoDup_filter; auto|]. intros x Hx. apply restrict_In in Hx. tauto.
  - apply NoDup_incl_length; auto. intros x Hx. apply restrict_In. split; auto.
Qed.

Definition align_pi (axes into : list nat) (r : nat) : list nat :=
  map (fun x => pos x axes) (restrict axes into) ++ seq (length axes) (r - length axes).

Lemma map_nth_seq_r (l1 l2 : list nat) :
  map (fun p => nth p (l1 ++ l2) 0) (seq (length l1) (length l2)) = l2.
Proof.
  apply (nth_ext_len _ _ 0); [rewrite map_length, seq_length; auto|].
  rewrite map_length, seq_length. intros k Hk.
  rewrite nth_map_nth by (rewrite seq_length; auto). rewrite seq_nth by auto.
  rewrite app_nth2 by lia. f_equal. lia.
Qed.

Lemma map_pos_nth (f : nat -> nat) axes rest l : incl l axes ->
  map (fun p => nth p (map f axes ++ rest) 0) (map (fun x => pos x axes) l) = map f l.
Proof.
  intros H. rewrite map_map. apply map_ext_in. intros x Hx. apply H in Hx.
  destruct (pos_spec _ _ Hx) as [P1 P2]. rewrite app_nth1 by (rewrite map_length; auto).
  rewrite (nth_indep _ 0 (f 0)) by (rewrite map_length; auto). rewrite map_nth. congruence.
Qed.

Lemma align_pi_map (f : nat -> nat) axes into rest : 
  map (fun p => nth p (map f axes ++ rest) 0) (align_pi axes into (length axes + length rest))
  = map f (restrict axes into) ++ rest.
Proof.
  unfold align_pi. rewrite map_app. f_equal.
  - apply map_pos_nth. intros x Hx. apply restrict_In in Hx. tauto.
  - replace (length axes + length rest - length axes) with (length rest) by lia.
    rewrite <- (map_length f axes) at 1. apply map_nth_seq_r.
Qed.

Lemma align_pi_perm axes into r : NoDup axes -> NoDup into -> incl axes into -> length axes <= r ->
  is_perm (align_pi axes into r) r = true.
Proof.
  intros N1 N2 I L. assert (RL := restrict_length _ _ N1 N2 I). apply is_perm_intro.
  - unfold align_pi. rewrite app_length, map_length, seq_length. lia.
  - unfold align_pi.
    assert (M : NoDup (map (fun x => pos x axes) (restrict axes into))).
    { apply NoDup_map_on; [|apply NoDup_filter; auto].
      intros x y Hx Hy E. apply restrict_In in Hx as [_ Hx], Hy as [_ Hy].
      destruct (pos_spec _ _ Hx) as [_ <-], (pos_spec _ _ Hy) as [_ <-]. congruence. }
    assert (B : forall k, In k (map (fun x => pos x axes) (restrict axes into)) -> k < length axes).
    { intros k Hk. apply in_map_iff in Hk as (x & <- & Hx). apply restrict_In in Hx as [_ Hx].
      apply pos_spec in Hx. tauto. }
    revert M B. generalize (map (fun x => pos x axes) (restrict axes into)) as l.
    induction l as [|y l IH]; simpl; intros M B; [apply seq_NoDup|]. inversion M; subst.
    constructor; [|apply IH; auto]. rewrite in_app_iff. intros [H|H]; [auto|].
    apply in_seq in H. specialize (B y (or_introl eq_refl)). lia.
  - intros k Hk. unfold align_pi in Hk. apply in_app_iff in Hk as [Hk|Hk].
    + apply in_map_iff in Hk as (x & <- & Hx). apply restrict_In in Hx as [_ Hx].
      apply pos_spec in Hx. lia.
    + apply in_seq in Hk. lia.
Qed.

Lemma expands_absent axes into : forall p,
  map fst (expands_from axes p into) = absent (fun x => mem x axes) p into.
Proof. induction into as [|x into IH]; simpl; intros p; auto. destruct (mem x axes); simpl; congruence. Qed.

(** Leading axes that are absent are dropped when [leftpad] is off. *)
Fixpoint trim (axes into : list nat) : list nat :=
  match into with
  | [] => []
  | x :: t => if mem x axes then into else trim axes t
  end.

Lemma expands_shift axes into : forall p,
  map (fun q => (fst q - 1, snd q)) (expands_from axes (S p) into) = expands_from axes p into.
Proof.
  induction into as [|x into IH]; simpl; intros p; auto.
  destruct (mem x axes); simpl; rewrite IH; [|rewrite Nat.sub_0_r]; auto.
Qed.

Lemma expands_pos axes into : forall p q, In q (expands_from axes p into) -> p <= fst q < p + length into.
Proof.
  intros p q H. apply (in_map fst) in H. rewrite expands_absent in H. apply absent_range in H. exact H.
Qed.

Lemma strip_expands_trim axes into : forall fuel, length (expands_from axes 0 into) <= fuel ->
  strip_expands fuel (expands_from axes 0 into) = expands_from axes 0 (trim axes into).
Proof.
  induction into as [|x into IH]; intros fuel Hf; [destruct fuel; reflexivity|].
  cbn [expands_from trim] in *. destruct (mem x axes) eqn:E.
  - cbn [expands_from]. rewrite E. destruct (expands_from axes 1 into) as [|[p y] l] eqn:X; [destruct fuel; auto|].
    assert (p <> 0). { assert (1 <= fst (p, y)) by (apply (expands_pos axes into 1); rewrite X; left; auto). simpl in *; lia. }
    destruct fuel, p; auto; lia.
  - simpl in Hf. destruct fuel; [lia|]. cbn [strip_expands]. rewrite expands_shift. apply IH.
    rewrite <- (expands_shift axes into 0), map_length. lia.
Qed.

Lemma trim_suffix axes into : exists pre, into = pre ++ trim axes into /\ forall x, In x pre -> mem x axes = false.
Proof.
  induction into as [|x into IH]; simpl; [exists []; simpl; tauto|].
  destruct (mem x axes) eqn:E; [exists []; simpl; tauto|].
  destruct IH as (pre & H1 & H2). exists (x :: pre). split; [simpl; congruence|].
  intros y [<-|H]; auto.
Qed.

Lemma restrict_trim axes into : restrict axes (trim axes into) = restrict axes into.
Proof.
  unfold restrict. induction into as [|x into IH]; simpl; auto. destruct (mem x axes) eqn:E; auto.
  simpl. rewrite E. auto.
Qed.

Section Rep.
Context {FO : FloatOps}.

(** Assignments of positions to the indices in scope. *)
Definition asg : Type := nat -> nat.

(** Size of the index axes, and the indices in scope. *)
Variable N : nat -> nat.
Variable I : list nat.

(** Position 0 counts as valid for an axis of size 0: the body of an empty
    comprehension is evaluated there for its shape ([den]). *)
Definition wv (s : asg) : Prop := forall i, In i I -> s i < Nat.max 1 (N i).

(** [b] represents the family [A]: [b] has the axes [into], of size 1 where
    [P] is false; beyond them it has the shape of the members. *)
Record frep (P : nat -> bool) (into rest : list nat) (k : kind) (b : arr) (A : asg -> arr) : Prop := {
  fr_wf : arr_wf b;
  fr_kind : akind b = k;
  fr_shape : ashape b = map (fun i => if P i then N i else 1) into ++ rest;
  fr_mem : forall s, wv s -> arr_wf (A s) /\ akind (A s) = k /\ ashape (A s) = rest;
  fr_get : forall s, wv s -> (forall i, In i into -> P i = true -> s i < N i) ->
    forall p, inb rest p -> get b (map (fun i => if P i then s i else 0) into ++ p) = get (A s) p
}.

Definition all_axes : nat -> bool := fun _ => true.

(** [b] with leading axes [ax] represents [A]. *)
Definition rep (ax : list nat) (b : arr) (A : asg -> arr) : Prop :=
  NoDup ax /\ incl ax I /\ exists rest k, frep all_axes ax rest k b A.

Lemma wv_zero : wv (fun _ => 0).
Proof. intros i _. lia. Qed.

Lemma frep_ext P P' into rest k b A A' :
  (forall i, In i into -> P i = P' i) -> (forall s, wv s -> A s = A' s) ->
  frep P into rest k b A -> frep P' into rest k b A'.
Proof.
  intros HP HA [W K S M G]. constructor; auto.
  - rewrite S. f_equal. apply map_ext_in. intros i Hi. rewrite HP; auto.
  - intros s Hs. rewrite <- HA; auto.
  - intros s Hs Hlt p Hp. rewrite <- HA by auto. rewrite <- (G s Hs); auto.
    + f_equal. f_equal. apply map_ext_in. intros i Hi. rewrite HP; auto.
    + intros i Hi Hpi. apply Hlt; auto. rewrite <- HP; auto.
Qed.

Lemma rep_ext ax b A A' : (forall s, wv s -> A s = A' s) -> rep ax b A -> rep ax b A'.
Proof.
  intros H (ND & I' & rest & k & F). split; [auto|]. split; [auto|]. exists rest, k.
  eapply frep_ext; [| |exact F]; auto.
Qed.

Lemma inb_assign P into s : (forall i, In i into -> P i = true -> s i < N i) ->
  inb (map (fun i => if P i then N i else 1) into) (map (fun i => if P i then s i else 0) into).
Proof.
  induction into as [|x into IH]; simpl; intros H; [constructor|]. constructor.
  - destruct (P x) eqn:E; [apply H; auto|lia].
  - apply IH. intros; apply H; auto.
Qed.

Lemma frep_inb P into rest k b A s p : frep P into rest k b A ->
  (forall i, In i into -> P i = true -> s i < N i) -> inb rest p ->
  inb (ashape b) (map (fun i => if P i then s i else 0) into ++ p).
Proof.
  intros F H Hp. rewrite (fr_shape _ _ _ _ _ _ F). apply inb_app; [rewrite !map_length; auto|].
  split; auto. apply inb_assign; auto.
Qed.

Lemma frep_rank P into rest k b A : frep P into rest k b A -> arank b = length into + length rest.
Proof. intros F. unfold arank. rewrite (fr_shape _ _ _ _ _ _ F), app_length, map_length. auto. Qed.

Lemma rep_nil b A : rep [] b A -> forall s, wv s -> A s = b.
Proof.
  intros (_ & _ & rest & k & F) s Hs. destruct (fr_mem _ _ _ _ _ _ F s Hs) as (W & K & S).
  pose proof (fr_shape _ _ _ _ _ _ F) as S'. simpl in S'.
  apply arr_ext; [exact W|apply F|rewrite K; symmetry; apply F|congruence|].
  intros p Hp. rewrite S in Hp. rewrite <- (fr_get _ _ _ _ _ _ F s Hs); simpl; auto; tauto.
Qed.

Lemma rep_const b : arr_wf b -> rep [] b (fun _ => b).
Proof.
  intros W. split; [constructor|]. split; [intros x []|]. exists (ashape b), (akind b).
  constructor; auto.
Qed.

(** Transposition to the order of [into]. *)
Lemma frep_transpose ax into rest k b A : NoDup ax -> NoDup into -> incl ax into ->
  frep all_axes ax rest k b A ->
  exists b', nd_transpose (align_pi ax into (arank b)) b = Ok b' /\
    frep all_axes (restrict ax into) rest k b' A.
Proof.
  intros N1 N2 Hi F. pose proof (frep_rank _ _ _ _ _ _ F) as R.
  destruct (transpose_spec (align_pi ax into (arank b)) b (fr_wf _ _ _ _ _ _ F)) as (b' & H1 & W & K & S & G).
  { apply align_pi_perm; auto. lia. }
  exists b'. split; auto. rewrite R in *. pose proof (fr_shape _ _ _ _ _ _ F) as S0.
  assert (MAP : forall (f : nat -> nat) l p, length p = length rest ->
    map (fun q => nth q (map (fun i => if all_axes i then f i else l) ax ++ p) 0)
        (align_pi ax into (length ax + length rest))
    = map (fun i => if all_axes i then f i else l) (restrict ax into) ++ p).
  { intros f l p Lp. rewrite <- Lp. apply (align_pi_map f). }
  constructor; auto.
  - rewrite K. apply F.
  - rewrite S, S0. apply (MAP N 1). reflexivity.
  - apply F.
  - intros s Hs Hlt p Hp. 
    assert (Hlt' : forall i, In i ax -> all_axes i = true -> s i < N i).
    { intros i Hx _. apply Hlt; auto. apply restrict_In. auto. }
    rewrite <- (MAP s 0 p) by (apply inb_length in Hp; auto).
    rewrite G; [|apply (frep_inb _ _ _ _ _ _ s p F); auto].
    apply (fr_get _ _ _ _ _ _ F); auto.
Qed.

(** Insertion of the missing axes, with size 1. *)
Lemma frep_unsqueeze ax into rest k b A : frep all_axes (restrict ax into) rest k b A ->
  exists b', nd_unsqueeze (absent (fun x => mem x ax) 0 into) b = Ok b' /\
    frep (fun x => mem x ax) into rest k b' A.
Proof.
  intros F. pose proof (frep_rank _ _ _ _ _ _ F) as R.
  pose proof (absent_length (fun x => mem x ax) into 0) as AL. fold (restrict ax into) in AL.
  destruct (unsqueeze_spec (absent (fun x => mem x ax) 0 into) b (fr_wf _ _ _ _ _ _ F))
    as (b' & H1 & W & K & S & G).
  { apply absent_NoDup. }
  { intros q Hq. apply absent_range in Hq. lia. }
  exists b'. split; auto.
  assert (S' : ashape b' = map (fun i => if mem i ax then N i else 1) into ++ rest).
  { rewrite S, (fr_shape _ _ _ _ _ _ F), R.
    replace (length (restrict ax into) + length rest + length (absent (fun x => mem x ax) 0 into))
      with (length into + length rest) by lia.
    apply (ins_at_labels (fun x => mem x ax) N 1 into rest 0). }
  constructor; auto.
  - rewrite K. apply F.
  - apply F.
  - intros s Hs Hlt p Hp. rewrite G.
    + rewrite drop_at_labels.
      assert (M : map (fun i => if mem i ax then s i else 0) (filter (fun x => mem x ax) into)
                  = map (fun i => if all_axes i then s i else 0) (restrict ax into)).
      { apply map_ext_in. intros i Hx. apply restrict_In in Hx as [_ Hx]. apply mem_In in Hx. rewrite Hx. auto. }
      rewrite M. apply (fr_get _ _ _ _ _ _ F); auto. intros i Hx _. apply restrict_In in Hx as [H2 H3].
      apply Hlt; auto. apply mem_In; auto.
    + rewrite S'. apply inb_app; [rewrite !map_length; auto|]. split; auto. apply inb_assign; auto.
Qed.

Lemma nth_map_lt' {A} (f : A -> nat) l k d d' : k < length l -> nth k (map f l) d' = f (nth k l d).
Proof. intros H. rewrite (nth_indep _ d' (f d)) by (rewrite map_length; auto). apply map_nth. Qed.

Lemma set_nth_labels (f g : nat -> nat) into j : NoDup into -> j < length into ->
  (forall i, In i into -> i <> nth j into 0 -> f i = g i) ->
  set_nth j (g (nth j into 0)) (map f into) = map g into.
Proof.
  revert j. induction into as [|x into IH]; simpl; intros j ND Hj H; [lia|]. inversion ND; subst.
  destruct j; simpl.
  - f_equal. apply map_ext_in. intros i Hi. apply H; auto. intros ->. auto.
  - f_equal; [apply H; auto; intros ->; apply H2; apply nth_In; lia|]. apply IH; auto. lia.
Qed.

(** Repetition of an inserted axis. *)
Lemma frep_repeat P into rest k b A j : NoDup into -> j < length into -> P (nth j into 0) = false ->
  frep P into rest k b A ->
  exists b', nd_repeat j (Z.of_nat (N (nth j into 0))) b = Ok b' /\
    frep (fun i => P i || (i =? nth j into 0)) into rest k b' A.
Proof.
  intros ND Hj HP F. set (x := nth j into 0) in *.
  pose proof (fr_shape _ _ _ _ _ _ F) as S0. pose proof (frep_rank _ _ _ _ _ _ F) as R.
  destruct (repeat_spec j (N x) b (fr_wf _ _ _ _ _ _ F)) as (b' & H1 & W & K & S & G).
  { lia. }
  { rewrite S0, app_nth1 by (rewrite map_length; auto).
    rewrite (nth_map_lt' _ _ _ 0) by auto. fold x. rewrite HP. reflexivity. }
  exists b'. split; auto.
  assert (S' : ashape b' = map (fun i => if P i || (i =? x) then N i else 1) into ++ rest).
  { rewrite S, S0, set_nth_app_l by (rewrite map_length; auto). f_equal.
    assert (X := set_nth_labels (fun i => if P i then N i else 1) (fun i => if P i || (i =? x) then N i else 1) into j ND Hj).
    cbv beta in X. fold x in X. rewrite HP, Nat.eqb_refl in X. apply X. intros i _ Hne.
    apply Nat.eqb_neq in Hne. rewrite Hne, orb_false_r. reflexivity. }
  constructor; auto.
  - rewrite K. apply F.
  - apply F.
  - intros s Hs Hlt p Hp. rewrite G.
    + rewrite set_nth_app_l by (rewrite map_length; auto).
      assert (X := set_nth_labels (fun i => if P i || (i =? x) then s i else 0) (fun i => if P i then s i else 0) into j ND Hj).
      cbv beta in X. fold x in X. rewrite HP in X. rewrite X.
      * apply (fr_get _ _ _ _ _ _ F); auto. intros i Hx Hpi. apply Hlt; auto. rewrite Hpi. auto.
      * intros i _ Hne. apply Nat.eqb_neq in Hne. rewrite Hne, orb_false_r. reflexivity.
    + rewrite S'. apply inb_app; [rewrite !map_length; auto|]. split; auto.
      apply (inb_assign (fun i => P i || (i =? x))); auto.
Qed.

(** * Array code *)

Context {EX : Externs} {PO : PadOps}.

Definition aty (a : arr) : pat := (length (ashape a), akind a).
Definition pack (l : list arr) : yval := match l with [a] => YA a | _ => YT l end.
Definition agree (X : list nat) (r r' : yenv) : Prop := forall x, In x X -> r (SV x) = r' (SV x).

(** [y] evaluates to [l] in every environment that agrees with [r] on the
    variables in scope, and has the type of [l]. *)
Definition yok (X : list nat) (r : yenv) (y : yarr) (l : list arr) : Prop :=
  (forall r', agree X r r' -> yeval r' y = Ok (pack l)) /\ ytyp y = Ok (map aty l).

Variable X : list nat.
Variable r : yenv.

Lemma yok_one y a : yok X r y [a] -> forall r', agree X r r' -> yeval r' y = Ok (YA a).
Proof. intros [H _] r' Hr. exact (H r' Hr). Qed.

Lemma yok_transpose pi y a b : yok X r y [a] -> nd_transpose pi a = Ok b -> yok X r (YTranspose pi y) [b].
Proof.
  intros [H T] E. split.
  - intros r' Hr. cbn [yeval]. rewrite (H r' Hr). cbn. rewrite E. reflexivity.
  - cbn [ytyp]. rewrite T. cbn. unfold nd_transpose in E. inv_bind.
    apply is_perm_spec in Hb as (L & _). unfold arank in L. rewrite L, Nat.eqb_refl. cbn.
    unfold aty. simpl. rewrite map_length, L. reflexivity.
Qed.

Lemma yok_unsqueeze axes y a b : yok X r y [a] -> nd_unsqueeze axes a = Ok b -> yok X r (YUnsqueeze axes y) [b].
Proof.
  intros [H T] E. split.
  - intros r' Hr. cbn [yeval]. rewrite (H r' Hr). cbn. rewrite E. reflexivity.
  - cbn [ytyp]. rewrite T. cbn. unfold nd_unsqueeze in E. inv_bind.
    apply andb_true_iff in Hb as [-> _]. cbn. unfold aty. simpl. rewrite ins_at_length. reflexivity.
Qed.

Lemma yok_repeat ax c y z a b : yok X r c [ascalar (SI z)] -> yok X r y [a] -> nd_repeat ax z a = Ok b ->
  yok X r (YRepeat ax c y) [b].
Proof.
  intros [H1 T1] [H T] E. split.
  - intros r' Hr. cbn [yeval]. rewrite (H r' Hr), (H1 r' Hr). cbn. rewrite E. reflexivity.
  - cbn [ytyp]. rewrite T, T1. cbn [bind map single aty fst snd ascalar ashape length guard Nat.eqb].
    unfold nd_repeat in E. inv_bind. unfold arank in Hb. rewrite Hb. cbn [bind guard]. unfold aty. simpl. rewrite set_nth_length. reflexivity.
Qed.

(** The size expressions of the indices. *)
Definition sizes_ok (repeats : list (nat * yarr)) : Prop :=
  forall i n, In i I -> assoc i repeats = Some n -> yok X r n [ascalar (SI (Z.of_nat (N i)))].

Definition has {A} (l : list (nat * A)) (x : nat) : bool := match assoc x l with Some _ => true | None => false end.

Lemma expands_In axes into : forall p j x, In (j, x) (expands_from axes p into) ->
  p <= j /\ j - p < length into /\ nth (j - p) into 0 = x /\ mem x axes = false.
Proof.
  induction into as [|y into IH]; simpl; intros p j x H; [tauto|].
  destruct (mem y axes) eqn:E.
  - apply IH in H as (A & B & C & D). replace (j - p) with (S (j - S p)) by lia. repeat split; auto; lia.
  - destruct H as [H|H].
    + injection H as -> ->. rewrite Nat.sub_diag. repeat split; auto; lia.
    + apply IH in H as (A & B & C & D). replace (j - p) with (S (j - S p)) by lia. repeat split; auto; lia.
Qed.

Lemma add_repeats_ok repeats into rest k A : sizes_ok repeats -> NoDup into -> incl into I ->
  forall l P y b,
  (forall j x, In (j, x) l -> j < length into /\ nth j into 0 = x /\ P x = false) ->
  NoDup (map snd l) ->
  yok X r y [b] -> frep P into rest k b A ->
  exists b', yok X r (add_repeats repeats l y) [b'] /\
    frep (fun i => P i || (has repeats i && mem i (map snd l))) into rest k b' A.
Proof.
  intros SO ND IN. induction l as [|[j x] l IH]; intros P y b Hl NDl Hy F.
  - exists b. split; [exact Hy|]. eapply frep_ext; [| |exact F]; auto.
    intros i _. simpl. rewrite andb_false_r, orb_false_r. auto.
  - destruct (Hl j x (or_introl eq_refl)) as (Hj & Hx & HP). cbn [add_repeats].
    simpl in NDl. inversion NDl as [|? ? NI NDl']; subst.
    assert (Hl' : forall j' x', In (j', x') l -> x' <> nth j into 0 ).
    { intros j' x' H' ->. apply NI. apply in_map_iff. exists (j', nth j into 0). auto. }
    destruct (assoc (nth j into 0) repeats) as [n|] eqn:E.
    + destruct (frep_repeat P into rest k b A j ND Hj HP F) as (b1 & R1 & F1).
      assert (Hn : yok X r n [ascalar (SI (Z.of_nat (N (nth j into 0))))]).
      { apply SO; auto. apply IN. apply nth_In; auto. }
      destruct (IH (fun i => P i || (i =? nth j into 0)) (YRepeat j n y) b1) as (b2 & Y2 & F2); auto.
      * intros j' x' H'. destruct (Hl j' x' (or_intror H')) as (A1 & A2 & A3). repeat split; auto.
        rewrite A3. simpl. apply Nat.eqb_neq. eapply Hl'; eauto.
      * eapply yok_repeat; eauto.
      * exists b2. split; auto. eapply frep_ext; [| |exact F2]; auto.
        intros i _. unfold mem. cbn [map snd existsb]. fold (mem i (map snd l)).
        destruct (i =? nth j into 0) eqn:Ei; simpl.
        -- apply Nat.eqb_eq in Ei. subst i. unfold has. rewrite E, HP. reflexivity.
        -- rewrite orb_false_r. reflexivity.
    + destruct (IH P y b) as (b2 & Y2 & F2); auto.
      * intros j' x' H'. apply (Hl j' x' (or_intror H')).
      * exists b2. split; auto. eapply frep_ext; [| |exact F2]; auto.
        intros i _. unfold mem. cbn [map snd existsb]. fold (mem i (map snd l)).
        destruct (i =? nth j into 0) eqn:Ei; simpl; auto.
        apply Nat.eqb_eq in Ei. subst i. unfold has. rewrite E. simpl. auto.
Qed.

Lemma expands_snd axes into : forall p, map snd (expands_from axes p into) = filter (fun x => negb (mem x axes)) into.
Proof. induction into as [|x into IH]; simpl; intros p; auto. destruct (mem x axes); simpl; rewrite IH; auto. Qed.

Definition into_axes (leftpad : bool) (ax into : list nat) : list nat :=
  if leftpad then into else trim ax into.

Lemma trim_NoDup ax into : NoDup into -> NoDup (trim ax into).
Proof.
  intros H. destruct (trim_suffix ax into) as (pre & E & _). rewrite E in H.
  apply NoDup_app_r in H. exact H.
Qed.
Lemma trim_incl ax into : incl (trim ax into) into.
Proof.
  destruct (trim_suffix ax into) as (pre & E & _). intros x Hx. rewrite E. apply in_or_app; auto.
Qed.

Lemma NoDup_app_l {A} (l1 l2 : list A) : NoDup (l1 ++ l2) -> NoDup l1.
Proof. induction l1; simpl; intros H; [constructor|]. inversion H; subst. constructor; [|auto]. intros Hi. apply H2. apply in_or_app; auto. Qed.

(** [_align] *)
Theorem align_ok y ax into leftpad repeats y' rest k b A :
  align y ax into leftpad repeats = Ok y' ->
  sizes_ok repeats -> NoDup ax -> NoDup into -> incl into I ->
  yok X r y [b] -> frep all_axes ax rest k b A ->
  exists b', yok X r y' [b'] /\
    frep (fun i => mem i ax || has repeats i) (into_axes leftpad ax into) rest k b' A.
Proof.
  intros H SO N1 N2 II Hy F. unfold align in H. inv_bind.
  assert (IN : incl ax into). { intros x Hx. apply mem_In. rewrite forallb_forall in Hb0. auto. }
  assert (a1 = arank b).
  { unfold erank in Hb1. rewrite (proj2 Hy) in Hb1. simpl in Hb1. injection Hb1 as <-. reflexivity. }
  subst a1.
  destruct (frep_transpose ax into rest k b A N1 N2 IN F) as (b1 & T1 & F1).
  set (into' := into_axes leftpad ax into).
  assert (N2' : NoDup into') by (unfold into'; destruct leftpad; [auto|apply trim_NoDup; auto]).
  assert (II' : incl into' I).
  { unfold into'. destruct leftpad; [auto|]. simpl. intros x Hx. apply II. eapply trim_incl; eauto. }
  assert (F1' : frep all_axes (restrict ax into') rest k b1 A).
  { unfold into'. destruct leftpad; auto. simpl. rewrite restrict_trim. auto. }
  destruct (frep_unsqueeze ax into' rest k b1 A F1') as (b2 & U2 & F2).
  assert (EX' : (if leftpad then expands_from ax 0 into
                else strip_expands (length (expands_from ax 0 into)) (expands_from ax 0 into))
               = expands_from ax 0 into').
  { unfold into'. destruct leftpad; auto. apply strip_expands_trim. lia. }
  rewrite EX', expands_absent.
  destruct (add_repeats_ok repeats into' rest k A SO N2' II' (expands_from ax 0 into') (fun i => mem i ax)
              (YUnsqueeze (absent (fun x => mem x ax) 0 into') (YTranspose (align_pi ax into (arank b)) y)) b2)
    as (b3 & Y3 & F3); auto.
  - intros j x Hj. apply expands_In in Hj as (H1 & H2 & H3 & H4). rewrite Nat.sub_0_r in *. auto.
  - rewrite expands_snd. apply NoDup_filter. auto.
  - eapply yok_unsqueeze; eauto. eapply yok_transpose; eauto.
  - exists b3. split; [exact Y3|]. eapply frep_ext; [| |exact F3]; auto.
    intros i Hi. cbv beta. rewrite expands_snd. destruct (mem i ax) eqn:E; auto. simpl.
    assert (M : mem i (filter (fun x => negb (mem x ax)) into') = true).
    { apply mem_In. apply filter_In. rewrite E. auto. }
    rewrite M, andb_true_r. reflexivity.
Qed.

End Rep.
