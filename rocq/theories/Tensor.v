(** Dense arrays: an element kind (dtype), a shape, and the elements in
    row-major order.  Models numpy.ndarray as used by ein (values are never
    mutated through a view here; in-place writes are modelled in Heap.v). *)
From Verif Require Import Base Scalar.

Section Tensor.
Context {FO : FloatOps}.

Record arr : Type := mkArr {
  akind : kind;
  ashape : list nat;
  adata : list scalar
}.

(** All index tuples of a shape, in row-major order. *)
Fixpoint all_idx (sh : list nat) : list (list nat) :=
  match sh with
  | [] => [[]]
  | n :: sh => flat_map (fun k => map (cons k) (all_idx sh)) (seq 0 n)
  end.

Definition size_of (sh : list nat) : nat := fold_right Nat.mul 1 sh.

Fixpoint ravel (sh idx : list nat) : nat :=
  match sh, idx with
  | _ :: sh, k :: idx => k * size_of sh + ravel sh idx
  | _, _ => 0
  end.

(** [inb sh idx]: the tuple has the right length and every entry is in range. *)
Definition inb (sh idx : list nat) : Prop := Forall2 lt idx sh.

Definition get (a : arr) (idx : list nat) : scalar :=
  nth (ravel (ashape a) idx) (adata a) (sjunk (akind a)).

Definition tab (k : kind) (sh : list nat) (f : list nat -> scalar) : arr :=
  mkArr k sh (map f (all_idx sh)).

Definition arr_wf (a : arr) : Prop :=
  length (adata a) = size_of (ashape a) /\ Forall (fun s => skind s = akind a) (adata a).

Lemma all_idx_length sh : length (all_idx sh) = size_of sh.
Proof.
  induction sh as [|n sh IH]; simpl; auto.
  assert (H : forall s, length (flat_map (fun k => map (cons k) (all_idx sh)) (seq s n))
                        = n * size_of sh).
  { induction n as [|n IHn]; intros s; simpl; auto.
    rewrite app_length, map_length, IH, IHn. reflexivity. }
  apply H.
Qed.

Lemma nth_flat_map_const {A} (f : nat -> list A) m n s k j d :
  (forall k, length (f k) = m) -> k < n -> j < m ->
  nth (k * m + j) (flat_map f (seq s n)) d = nth j (f (s + k)) d.
Proof.
  intros Hl. revert s k. induction n as [|n IH]; intros s k Hk Hj; [lia|].
  simpl. destruct k.
  - simpl. rewrite app_nth1 by (rewrite Hl; lia). f_equal. f_equal. lia.
  - rewrite app_nth2 by (rewrite Hl; simpl; lia).
    rewrite Hl. replace (S k * m + j - m) with (k * m + j) by (simpl; lia).
    rewrite IH by lia. f_equal. f_equal. lia.
Qed.

Lemma ravel_lt sh idx : inb sh idx -> ravel sh idx < size_of sh.
Proof.
  unfold inb. intros H. induction H as [|k n idx sh Hk H IH]; simpl; [lia|].
  assert (k * size_of sh + size_of sh <= n * size_of sh) by nia. lia.
Qed.

Lemma nth_all_idx sh idx d : inb sh idx -> nth (ravel sh idx) (all_idx sh) d = idx.
Proof.
  unfold inb. intros H. induction H as [|k n idx sh Hk H IH]; simpl; auto.
  rewrite (nth_flat_map_const (fun k => map (cons k) (all_idx sh)) (size_of sh)).
  - simpl. rewrite (nth_indep _ d (k :: d)).
    + rewrite map_nth, IH. reflexivity.
    + rewrite map_length, all_idx_length. apply ravel_lt. exact H.
  - intros. rewrite map_length. apply all_idx_length.
  - exact Hk.
  - apply ravel_lt. exact H.
Qed.

Lemma all_idx_inb sh idx : In idx (all_idx sh) <-> inb sh idx.
Proof.
  revert idx. unfold inb. induction sh as [|n sh IH]; simpl; intros idx; split; intros H.
  - destruct H as [<-|[]]. constructor.
  - inversion H; auto.
  - apply in_flat_map in H as (k & Hk & H). apply in_map_iff in H as (i & <- & H).
    apply in_seq in Hk. constructor; [lia|]. apply IH; auto.
  - inversion H; subst. apply in_flat_map. exists x. split; [apply in_seq; lia|].
    apply in_map. apply IH; auto.
Qed.

Lemma get_tab k sh f idx : inb sh idx -> get (tab k sh f) idx = f idx.
Proof.
  intros H. unfold get, tab; simpl.
  rewrite (nth_indep _ _ (f [])).
  - rewrite map_nth. rewrite nth_all_idx by auto. reflexivity.
  - rewrite map_length, all_idx_length. apply ravel_lt; auto.
Qed.

Lemma tab_ext k sh f g : (forall idx, inb sh idx -> f idx = g idx) -> tab k sh f = tab k sh g.
Proof.
  intros H. unfold tab. f_equal. apply map_ext_in. intros idx Hi. apply H.
  apply all_idx_inb; auto.
Qed.

Lemma nth_ravel_all (a : list scalar) sh d :
  length a = size_of sh -> map (fun idx => nth (ravel sh idx) a d) (all_idx sh) = a.
Proof.
  revert a. induction sh as [|n sh IH]; simpl; intros a L.
  - destruct a as [|x [|y a]]; simpl in L; try lia; auto.
  - assert (H : forall n s pre a, length pre = s * size_of sh -> length a = n * size_of sh ->
       map (fun idx => nth (ravel (0 :: sh) idx) (pre ++ a) d)
           (flat_map (fun k => map (cons k) (all_idx sh)) (seq s n)) = a).
    { clear n a L. induction n as [|n IHn]; intros s pre a Lp La; simpl.
      - destruct a; simpl in La; auto; lia.
      - rewrite map_app, map_map. simpl in La.
        transitivity (firstn (size_of sh) a ++ skipn (size_of sh) a); [|apply firstn_skipn].
        f_equal.
        + transitivity (map (fun idx => nth (ravel sh idx) (firstn (size_of sh) a) d) (all_idx sh));
            [|apply IH; rewrite firstn_length; lia].
          apply map_ext_in. intros idx Hi. simpl.
          apply all_idx_inb, ravel_lt in Hi.
          rewrite app_nth2 by lia. rewrite Lp.
          replace (s * size_of sh + ravel sh idx - s * size_of sh) with (ravel sh idx) by lia.
          rewrite <- (firstn_skipn (size_of sh) a) at 1.
          rewrite app_nth1; auto. rewrite firstn_length. lia.
        + specialize (IHn (S s) (pre ++ firstn (size_of sh) a) (skipn (size_of sh) a)).
          rewrite <- app_assoc, firstn_skipn in IHn. apply IHn.
          * rewrite app_length, firstn_length. simpl. lia.
          * rewrite skipn_length. lia. }
    apply (H n 0 [] a); simpl; auto.
Qed.

Lemma tab_get a : arr_wf a -> tab (akind a) (ashape a) (get a) = a.
Proof.
  intros [L _]. unfold tab, get. destruct a as [k sh d]; simpl in *. f_equal.
  apply nth_ravel_all; auto.
Qed.

Lemma tab_wf k sh f : (forall idx, inb sh idx -> skind (f idx) = k) -> arr_wf (tab k sh f).
Proof.
  intros H. split; simpl.
  - rewrite map_length. apply all_idx_length.
  - apply Forall_map. apply Forall_forall. intros idx Hi. apply H.
    apply all_idx_inb; auto.
Qed.

Lemma arr_ext a b :
  arr_wf a -> arr_wf b -> akind a = akind b -> ashape a = ashape b ->
  (forall idx, inb (ashape a) idx -> get a idx = get b idx) -> a = b.
Proof.
  intros Ha Hb Hk Hs H. rewrite <- (tab_get a Ha), <- (tab_get b Hb).
  rewrite <- Hk, <- Hs. apply tab_ext. exact H.
Qed.

Lemma get_kind a idx : arr_wf a -> inb (ashape a) idx -> skind (get a idx) = akind a.
Proof.
  intros [L K] H. rewrite Forall_forall in K. unfold get. apply K. apply nth_In.
  rewrite L. apply ravel_lt; auto.
Qed.

Lemma arr_eq_dec (a b : arr) : {a = b} + {a <> b}.
Proof.
  decide equality.
  - apply (list_eq_dec scalar_eq_dec).
  - apply (list_eq_dec Nat.eq_dec).
  - decide equality.
Defined.

(** Boolean in-range test. *)
Fixpoint inbb (sh idx : list nat) : bool :=
  match sh, idx with
  | [], [] => true
  | n :: sh, k :: idx => (k <? n) && inbb sh idx
  | _, _ => false
  end.

Lemma inbb_inb sh idx : inbb sh idx = true <-> inb sh idx.
Proof.
  unfold inb. revert idx. induction sh as [|n sh IH]; destruct idx as [|k idx]; simpl;
    split; intros H; try discriminate; try solve [inversion H]; auto.
  - apply andb_true_iff in H as [H1 H2]. constructor; [apply Nat.ltb_lt; auto|apply IH; auto].
  - inversion H; subst. apply andb_true_iff. split; [apply Nat.ltb_lt; auto|apply IH; auto].
Qed.

(** 0-dimensional arrays *)
Definition ascalar (s : scalar) : arr := mkArr (skind s) [] [s].

Definition as_scalar (a : arr) : res scalar :=
  match ashape a with
  | [] => Ok (get a [])
  | _ => Err EType
  end.

Lemma ascalar_tab s : ascalar s = tab (skind s) [] (fun _ => s).
Proof. reflexivity. Qed.

Lemma ascalar_wf s : arr_wf (ascalar s).
Proof. split; simpl; auto. Qed.

Lemma as_scalar_ok a s : arr_wf a -> as_scalar a = Ok s -> a = ascalar s.
Proof.
  unfold as_scalar. intros [L K] H. destruct a as [k sh d]; simpl in *.
  destruct sh; [|discriminate]. simpl in L.
  destruct d as [|x [|y d]]; simpl in L; try lia.
  injection H as <-. inversion K; subst. reflexivity.
Qed.

Lemma as_scalar_ascalar s : as_scalar (ascalar s) = Ok s.
Proof. destruct s; reflexivity. Qed.

(** int(a) for a 0-d array (bools count as 0/1; truncation of floats is not
    modelled and is an error). *)
Definition scalar_int (s : scalar) : res Z :=
  match s with
  | SI z => Ok z
  | SB b => Ok (Z.b2z b)
  | SF _ => Err EType
  end.

Definition as_int (a : arr) : res Z := let* s := as_scalar a in scalar_int s.

(** Element [k] along the first axis: [a[k]]. *)
Definition asub (a : arr) (k : nat) : arr :=
  tab (akind a) (tl (ashape a)) (fun idx => get a (k :: idx)).

(** Prefix indexing [a[p0, p1, ...]]. *)
Definition aslice (a : arr) (p : list nat) : arr :=
  tab (akind a) (skipn (length p) (ashape a)) (fun idx => get a (p ++ idx)).

(** numpy.array([...]) of arrays of the same shape [sh] and kind [k]. *)
Definition astack (k : kind) (sh : list nat) (l : list arr) : arr :=
  tab k (length l :: sh)
    (fun idx => match idx with
                | i :: idx => get (nth i l (mkArr k sh [])) idx
                | [] => sjunk k
                end).

Definition list_nat_eqb (a b : list nat) : bool :=
  if list_eq_dec Nat.eq_dec a b then true else false.

Lemma list_nat_eqb_eq a b : list_nat_eqb a b = true <-> a = b.
Proof. unfold list_nat_eqb. destruct (list_eq_dec Nat.eq_dec a b); split; congruence. Qed.

Definition arr_like (a b : arr) : bool :=
  kind_eqb (akind a) (akind b) && list_nat_eqb (ashape a) (ashape b).

Lemma arr_like_true a b : arr_like a b = true <-> akind a = akind b /\ ashape a = ashape b.
Proof.
  unfold arr_like. rewrite andb_true_iff, kind_eqb_eq, list_nat_eqb_eq. tauto.
Qed.

(** Clipping of an index to a non-empty axis: [min(max(z,0),n-1)]. *)
Definition clip (z : Z) (n : nat) : nat :=
  Z.to_nat (Z.min (Z.max z 0) (Z.of_nat n - 1)).

Lemma clip_lt z n : 0 < n -> clip z n < n.
Proof. unfold clip. lia. Qed.

Lemma clip_id k n : k < n -> clip (Z.of_nat k) n = k.
Proof. unfold clip. lia. Qed.

Lemma inb_nil : inb [] [].
Proof. constructor. Qed.

Lemma inb_cons n sh k idx : inb (n :: sh) (k :: idx) <-> k < n /\ inb sh idx.
Proof. unfold inb. split; intros H; [inversion H; auto|constructor; tauto]. Qed.

Lemma inb_app s1 s2 i1 i2 :
  length i1 = length s1 -> (inb (s1 ++ s2) (i1 ++ i2) <-> inb s1 i1 /\ inb s2 i2).
Proof.
  unfold inb. revert i1. induction s1 as [|n s1 IH]; destruct i1 as [|k i1]; simpl; intros L; try lia.
  - split; [intros; split; [constructor|auto]|tauto].
  - split.
    + intros H. inversion H; subst. apply IH in H5; [|lia]. destruct H5. split; auto.
    + intros [H1 H2]. inversion H1; subst. constructor; auto. apply IH; auto.
Qed.

Lemma inb_length sh idx : inb sh idx -> length idx = length sh.
Proof. unfold inb. intros H. eapply Forall2_len; eauto. Qed.

Lemma inb_app_inv s1 s2 idx :
  inb (s1 ++ s2) idx -> exists i1 i2, idx = i1 ++ i2 /\ inb s1 i1 /\ inb s2 i2.
Proof.
  unfold inb. intros H. apply Forall2_app_inv_r in H as (i1 & i2 & H1 & H2 & ->). eauto.
Qed.

Lemma inb_nth sh idx k : inb sh idx -> k < length sh -> nth k idx 0 < nth k sh 0.
Proof.
  intros H Hk. pose proof (inb_length _ _ H). unfold inb in H.
  apply (Forall2_nth lt idx sh k 0 0 H). lia.
Qed.

Lemma inb_of_nth sh idx :
  length idx = length sh -> (forall k, k < length sh -> nth k idx 0 < nth k sh 0) -> inb sh idx.
Proof. intros L H. apply (Forall2_of_nth lt idx sh 0 0); auto. intros. apply H. lia. Qed.

Lemma asub_shape a k : ashape (asub a k) = tl (ashape a).
Proof. reflexivity. Qed.

Lemma asub_get a k idx : inb (tl (ashape a)) idx -> get (asub a k) idx = get a (k :: idx).
Proof. intros. unfold asub. rewrite get_tab; auto. Qed.

Lemma asub_wf a k n sh : arr_wf a -> ashape a = n :: sh -> k < n -> arr_wf (asub a k).
Proof.
  intros W E Hk. apply tab_wf. rewrite E; simpl. intros idx Hi.
  apply get_kind; auto. rewrite E. apply inb_cons; auto.
Qed.

Lemma aslice_wf a p s1 s2 :
  arr_wf a -> ashape a = s1 ++ s2 -> inb s1 p -> arr_wf (aslice a p).
Proof.
  intros W E Hp. apply tab_wf. pose proof (inb_length _ _ Hp) as L. rewrite E, L.
  rewrite skipn_app, skipn_all, Nat.sub_diag. simpl. intros idx Hi.
  apply get_kind; auto. rewrite E. apply inb_app; auto.
Qed.

Lemma aslice_shape a p s1 s2 :
  ashape a = s1 ++ s2 -> length p = length s1 -> ashape (aslice a p) = s2.
Proof.
  intros E L. simpl. rewrite E, L, skipn_app, skipn_all, Nat.sub_diag. reflexivity.
Qed.

Lemma aslice_get a p s1 s2 idx :
  ashape a = s1 ++ s2 -> length p = length s1 -> inb s2 idx ->
  get (aslice a p) idx = get a (p ++ idx).
Proof.
  intros E L H. unfold aslice. rewrite get_tab; auto.
  rewrite E, L, skipn_app, skipn_all, Nat.sub_diag. exact H.
Qed.

Lemma aslice_nil a : arr_wf a -> aslice a [] = a.
Proof. intros W. unfold aslice. simpl. apply tab_get; auto. Qed.

Lemma astack_wf k sh l :
  Forall (fun a => arr_wf a /\ akind a = k /\ ashape a = sh) l -> arr_wf (astack k sh l).
Proof.
  intros H. apply tab_wf. intros idx Hi. destruct idx as [|i idx]; [inversion Hi|].
  apply inb_cons in Hi as [Hi Hx]. rewrite Forall_forall in H.
  destruct (H (nth i l (mkArr k sh []))) as (W & K & S).
  { apply nth_In; auto. }
  rewrite <- K at 2. apply get_kind; auto. rewrite S; auto.
Qed.

Lemma asub_astack k sh l i :
  Forall (fun a => arr_wf a /\ akind a = k /\ ashape a = sh) l -> i < length l ->
  asub (astack k sh l) i = nth i l (mkArr k sh []).
Proof.
  intros H Hi. rewrite Forall_forall in H.
  destruct (H (nth i l (mkArr k sh []))) as (W & K & S); [apply nth_In; auto|].
  unfold asub. simpl. rewrite <- (tab_get _ W). rewrite K, S. apply tab_ext.
  intros idx Hx. unfold astack. rewrite get_tab; auto. apply inb_cons; auto.
Qed.

End Tensor.
