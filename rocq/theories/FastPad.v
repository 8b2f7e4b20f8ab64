(** numpy_backend.py:90-123 [fast_edge_pad]. *)
From Verif Require Import Base Scalar Tensor NdOps NdFacts IndexOps.

Section FastPad.
Context {FO : FloatOps}.

(** What [numpy.empty] leaves at a position: uninitialised memory. *)
Variable garbage : list nat -> F.

(** Storing an element into a float array is [to_float]. *)

(** Where one axis of size [n], padded by [(l, r)] on at most one side, is
    written from: 99-117.  [dest] receives the array, [dest_op] its edge. *)
Definition in_dest (n : nat) (p : Z * Z) (k : nat) : bool :=
  let '(l, r) := p in
  if ((l =? 0) && (r =? 0))%Z then true
  else if (l =? 0)%Z then (Z.of_nat k <? Z.of_nat n + l + r - r)%Z     (* slice(-rt) *)
  else (l <=? Z.of_nat k)%Z.                                           (* slice(lt, None) *)
Definition in_dest_op (n : nat) (p : Z * Z) (k : nat) : bool :=
  let '(l, r) := p in
  if ((l =? 0) && (r =? 0))%Z then true
  else if (l =? 0)%Z then (Z.of_nat n + l + r - r <=? Z.of_nat k)%Z    (* slice(-rt, None) *)
  else (Z.of_nat k <? l)%Z.                                            (* slice(lt) *)
(** the position of [target] stored there *)
Definition dest_src (p : Z * Z) (k : nat) : nat := k - Z.to_nat (fst p).
Definition edge_src (n : nat) (p : Z * Z) (k : nat) : nat :=
  let '(l, r) := p in
  if ((l =? 0) && (r =? 0))%Z then k                                   (* slice(None) *)
  else if (l =? 0)%Z then n - 1                                        (* -1 *)
  else 0.                                                              (* 0 *)

Fixpoint all3 (f : nat -> Z * Z -> nat -> bool) (sh : list nat) (pads : list (Z * Z)) (idx : list nat) : bool :=
  match sh, pads, idx with
  | n :: sh, p :: pads, k :: idx => f n p k && all3 f sh pads idx
  | _, _, _ => true
  end.
Fixpoint map3 (f : nat -> Z * Z -> nat -> nat) (sh : list nat) (pads : list (Z * Z)) (idx : list nat) : list nat :=
  match sh, pads, idx with
  | n :: sh, p :: pads, k :: idx => f n p k :: map3 f sh pads idx
  | _, _, _ => []
  end.

(** Negative pads are an error here (NumPy's behaviour depends on the branch);
    the compiler produces none on the programs considered. *)
Definition fast_edge_pad (a : arr) (pads : list (Z * Z)) : res arr :=
  let* _ := guard (pads_ok pads) EValue in
  let* _ := guard (length pads =? arank a) EValue in
  if size_of (ashape a) =? 0 then                                                    (* 93-94 *)
    Ok (tab KFloat (map (fun p => Z.to_nat (fst p + snd p)) pads) (fun idx => SF (garbage idx)))
  else if (fold_right (fun p z => fst p + snd p + z) 0 pads =? 0)%Z then Ok a         (* 95-96 *)
  else if forallb (fun p => negb (negb (fst p =? 0) && negb (snd p =? 0))%Z) pads then (* 97-122 *)
    Ok (tab KFloat (edge_sh (ashape a) pads) (fun idx =>
          if all3 in_dest_op (ashape a) pads idx then to_float (get a (map3 edge_src (ashape a) pads idx))
          else if all3 in_dest (ashape a) pads idx then to_float (get a (map3 (fun _ => dest_src) (ashape a) pads idx))
          else SF (garbage idx)))
  else nd_edge_pad a pads.                                                           (* 123 *)

(** * Only one axis padded *)

Lemma all3_app f u p1 i v p2 j : length p1 = length u -> length i = length u ->
  all3 f (u ++ v) (p1 ++ p2) (i ++ j) = all3 f u p1 i && all3 f v p2 j.
Proof.
  revert p1 i. induction u; destruct p1, i; simpl; intros; try lia; auto. rewrite IHu by lia. apply andb_assoc.
Qed.
Lemma map3_app f u p1 i v p2 j : length p1 = length u -> length i = length u ->
  map3 f (u ++ v) (p1 ++ p2) (i ++ j) = map3 f u p1 i ++ map3 f v p2 j.
Proof.
  revert p1 i. induction u; destruct p1, i; simpl; intros; try lia; auto. rewrite IHu by lia. auto.
Qed.
Lemma all3_zero f u i : (forall n k, f n (0%Z, 0%Z) k = true) -> all3 f u (repeat (0%Z, 0%Z) (length u)) i = true.
Proof. intros H. revert i. induction u; destruct i; simpl; auto. rewrite H, IHu. auto. Qed.
Lemma map3_zero f u i : (forall n k, f n (0%Z, 0%Z) k = k) -> length i = length u ->
  map3 f u (repeat (0%Z, 0%Z) (length u)) i = i.
Proof. intros H. revert i. induction u; destruct i; simpl; intros; try lia; auto. rewrite H, IHu by lia. auto. Qed.

Lemma size_of_pos sh : 0 < size_of sh <-> Forall (lt 0) sh.
Proof.
  induction sh as [|n sh IH]; simpl.
  - split; [constructor|lia].
  - split.
    + intros H. assert (0 < n /\ 0 < size_of sh) as [A B] by (destruct n, (size_of sh); lia).
      constructor; [auto|apply IH; auto].
    + intros H. inversion H; subst. apply IH in H3. destruct n; lia.
Qed.

Lemma sum_pads m k l r : fold_right (fun p z => fst p + snd p + z)%Z 0%Z (pads_at m k l r) = (l + r)%Z.
Proof.
  unfold pads_at. rewrite fold_right_app. cbn [fold_right fst snd].
  assert (Q : forall q z, fold_right (fun p z => fst p + snd p + z)%Z z (repeat (0%Z, 0%Z) q) = z)
    by (induction q; intros; simpl; auto).
  rewrite !Q. lia.
Qed.

Lemma forallb_pads f m k l r : f (0%Z, 0%Z) = true -> forallb f (pads_at m k l r) = f (l, r).
Proof.
  intros H. unfold pads_at. rewrite forallb_app. cbn [forallb].
  assert (Q : forall q, forallb f (repeat (0%Z, 0%Z) q) = true) by (induction q; simpl; rewrite ?H; auto).
  rewrite !Q. rewrite andb_true_r. auto.
Qed.

(** [astype(float)] *)
Definition as_float (a : arr) : arr := tab KFloat (ashape a) (fun idx => to_float (get a idx)).

Lemma as_float_id a : arr_wf a -> akind a = KFloat -> as_float a = a.
Proof.
  intros W K. unfold as_float. transitivity (tab (akind a) (ashape a) (get a)); [|apply tab_get; auto].
  rewrite K. apply tab_ext. intros idx H.
  pose proof (get_kind a idx W H) as Q. rewrite K in Q. destruct (get a idx); try discriminate. reflexivity.
Qed.

(** Exactly one side of one axis is padded: NumPy's edge padding, as floats. *)
Lemma fast_one_sided a u n v l r : arr_wf a -> ashape a = u ++ n :: v -> Forall (lt 0) (ashape a) ->
  (0 <= l)%Z -> (0 <= r)%Z -> (l = 0 \/ r = 0)%Z -> (0 < l + r)%Z ->
  exists b, nd_edge_pad a (pads_at (length u) (length v) l r) = Ok b /\
    fast_edge_pad a (pads_at (length u) (length v) l r) = Ok (as_float b).
Proof.
  intros W S P Hl Hr ONE POS.
  assert (Hn : 0 < n) by (rewrite S in P; apply Forall_app in P as [_ P]; inversion P; auto).
  destruct (pad_one u n v a l r W S Hn Hl Hr) as (b & Hb & Wb & Kb & Sb & Gb).
  exists b. split; auto. unfold fast_edge_pad.
  assert (PO : pads_ok (pads_at (length u) (length v) l r) = true).
  { unfold pads_ok. rewrite forallb_pads by auto. simpl. apply andb_true_iff. split; apply Z.leb_le; auto. }
  rewrite PO. cbn [guard bind].
  assert (L : length (pads_at (length u) (length v) l r) = arank a).
  { unfold pads_at, arank. rewrite S, !app_length. simpl. rewrite !repeat_length. auto. }
  rewrite L, Nat.eqb_refl. cbn [guard bind].
  apply size_of_pos in P. destruct (Nat.eqb_spec (size_of (ashape a)) 0) as [Q|_]; [lia|].
  rewrite sum_pads. destruct (Z.eqb_spec (l + r) 0) as [Q|_]; [lia|].
  rewrite forallb_pads by auto. cbn [fst snd].
  assert (B : negb (negb (l =? 0)%Z && negb (r =? 0)%Z) = true).
  { destruct ONE as [->| ->]; rewrite Z.eqb_refl; simpl; rewrite ?andb_false_r; auto. }
  rewrite B. f_equal. unfold as_float.
  assert (SH : edge_sh (ashape a) (pads_at (length u) (length v) l r) = ashape b).
  { unfold nd_edge_pad in Hb. apply bind_ok in Hb as (x1 & _ & Hb). apply bind_ok in Hb as (x2 & _ & Hb).
    apply bind_ok in Hb as (x3 & _ & Hb). injection Hb as <-. reflexivity. }
  rewrite SH. apply tab_ext. intros idx Hi. rewrite Sb in Hi.
  apply inb_app_inv in Hi as (i & jp & -> & Hi & Hjp). destruct jp as [|j p]; [inversion Hjp|].
  apply inb_cons in Hjp as [Hj Hp]. rewrite Gb by auto.
  pose proof (inb_length _ _ Hi) as Li. pose proof (inb_length _ _ Hp) as Lp.
  rewrite S. unfold pads_at. rewrite !all3_app, !map3_app by (rewrite ?repeat_length; auto).
  cbn [all3 map3].
  assert (Z1 : forall w q, all3 in_dest_op w (repeat (0%Z, 0%Z) (length w)) q = true) by (intros; apply all3_zero; reflexivity).
  assert (Z2 : forall w q, all3 in_dest w (repeat (0%Z, 0%Z) (length w)) q = true) by (intros; apply all3_zero; reflexivity).
  rewrite !Z1, !Z2, !andb_true_r. cbn [andb].
  rewrite !map3_zero by (auto; intros; unfold dest_src; simpl; lia).
  destruct (in_dest_op n (l, r) j) eqn:D1.
  - f_equal. f_equal. f_equal. f_equal. unfold in_dest_op, edge_src in *. unfold clip.
    destruct ONE as [->| ->].
    + rewrite Z.eqb_refl in *. cbn [andb] in *. destruct (Z.eqb_spec r 0); [lia|]. apply Z.leb_le in D1. lia.
    + destruct (Z.eqb_spec l 0); [lia|]. cbn [andb] in *. apply Z.ltb_lt in D1. lia.
  - assert (D2 : in_dest n (l, r) j = true).
    { unfold in_dest_op, in_dest in *. destruct (((l =? 0) && (r =? 0))%Z); [discriminate|].
      destruct (l =? 0)%Z; [apply Z.leb_gt in D1; apply Z.ltb_lt; lia|apply Z.ltb_ge in D1; apply Z.leb_le; lia]. }
    rewrite D2. f_equal. f_equal. f_equal. f_equal. unfold in_dest_op, in_dest, dest_src in *. cbn [fst]. unfold clip.
    destruct ONE as [->| ->].
    + rewrite Z.eqb_refl in *. cbn [andb] in *. destruct (Z.eqb_spec r 0); [lia|]. apply Z.ltb_lt in D2. lia.
    + destruct (Z.eqb_spec l 0); [lia|]. cbn [andb] in *. apply Z.leb_le in D2. lia.
Qed.

Lemma nd_pad_nothing u n v a : arr_wf a -> ashape a = u ++ n :: v -> 0 < n ->
  nd_edge_pad a (pads_at (length u) (length v) 0 0) = Ok a.
Proof.
  intros W S Hn. destruct (pad_one u n v a 0 0 W S Hn) as (b & Hb & Wb & Kb & Sb & Gb); try lia.
  rewrite Hb. f_equal. simpl in *. rewrite !Nat.add_0_r in *. apply arr_ext; auto; [congruence|].
  intros idx Hi. rewrite Sb in Hi. apply inb_app_inv in Hi as (i & jp & -> & Hi & Hjp). destruct jp as [|j p]; [inversion Hjp|].
  apply inb_cons in Hjp as [Hj Hp]. rewrite Gb by auto. rewrite Z.sub_0_r, clip_id by auto. auto.
Qed.

(** One axis padded, on a float array with elements: NumPy's edge padding. *)
Lemma fast_one_axis a u n v l r : arr_wf a -> ashape a = u ++ n :: v -> Forall (lt 0) (ashape a) ->
  akind a = KFloat -> (0 <= l)%Z -> (0 <= r)%Z ->
  fast_edge_pad a (pads_at (length u) (length v) l r) = nd_edge_pad a (pads_at (length u) (length v) l r).
Proof.
  intros W S P K Hl Hr.
  assert (Hn : 0 < n) by (rewrite S in P; apply Forall_app in P as [_ P]; inversion P; auto).
  destruct (Z.eq_dec (l + r) 0) as [Q|Q].
  - assert (l = 0 /\ r = 0)%Z as [-> ->] by lia. rewrite (nd_pad_nothing u n v a W S Hn).
    unfold fast_edge_pad. unfold pads_ok. rewrite forallb_pads by auto. cbn [fst snd guard bind andb Z.leb Z.compare].
    assert (L : length (pads_at (length u) (length v) 0 0) = arank a).
    { unfold pads_at, arank. rewrite S, !app_length. simpl. rewrite !repeat_length. auto. }
    rewrite L, Nat.eqb_refl. cbn [guard bind]. apply size_of_pos in P.
    destruct (Nat.eqb_spec (size_of (ashape a)) 0) as [Q'|_]; [lia|]. rewrite sum_pads. reflexivity.
  - destruct (Z.eq_dec l 0) as [L0|L0]; [|destruct (Z.eq_dec r 0) as [R0|R0]].
    1,2: destruct (fast_one_sided a u n v l r W S P Hl Hr) as (b & B1 & B2); [auto|lia|];
      rewrite B1, B2; f_equal; destruct (pad_one u n v a l r W S Hn Hl Hr) as (b' & Hb & Wb & Kb & _);
      rewrite B1 in Hb; injection Hb as <-; apply as_float_id; congruence.
    unfold fast_edge_pad.
    assert (PO : pads_ok (pads_at (length u) (length v) l r) = true).
    { unfold pads_ok. rewrite forallb_pads by auto. simpl. apply andb_true_iff. split; apply Z.leb_le; auto. }
    rewrite PO. cbn [guard bind].
    assert (L : length (pads_at (length u) (length v) l r) = arank a).
    { unfold pads_at, arank. rewrite S, !app_length. simpl. rewrite !repeat_length. auto. }
    rewrite L, Nat.eqb_refl. cbn [guard bind].
    apply size_of_pos in P. destruct (Nat.eqb_spec (size_of (ashape a)) 0) as [Q'|_]; [lia|].
    rewrite sum_pads. destruct (Z.eqb_spec (l + r) 0) as [Q'|_]; [lia|].
    rewrite forallb_pads by auto. cbn [fst snd].
    destruct (Z.eqb_spec l 0); [lia|]. destruct (Z.eqb_spec r 0); [lia|]. reflexivity.
Qed.

(** The shape, on arrays with elements. *)
Lemma fast_shape a pads b : Forall (lt 0) (ashape a) -> fast_edge_pad a pads = Ok b ->
  ashape b = edge_sh (ashape a) pads.
Proof.
  intros P H. unfold fast_edge_pad in H. apply bind_ok in H as (x1 & PO & H). apply bind_ok in H as (x2 & L & H).
  apply guard_ok in PO, L. apply Nat.eqb_eq in L.
  apply size_of_pos in P. destruct (Nat.eqb_spec (size_of (ashape a)) 0) as [Q'|_]; [lia|].
  destruct (Z.eqb_spec (fold_right (fun p z => fst p + snd p + z)%Z 0%Z pads) 0) as [Q|_].
  - injection H as <-. unfold arank in L. unfold pads_ok in PO. rewrite forallb_forall in PO.
    clear P. revert pads PO L Q. induction (ashape a) as [|n sh IH]; intros [|[l r] pads] PO L Q; simpl in *; try lia; auto.
    assert (NN : (0 <= fold_right (fun p z => fst p + snd p + z)%Z 0%Z pads)%Z).
    { assert (PO' : forall x, In x pads -> ((0 <=? fst x) && (0 <=? snd x))%Z = true) by (intros; apply PO; auto).
      clear - PO'. induction pads as [|q pads IHp]; simpl; [lia|].
      specialize (IHp (fun x Hx => PO' x (or_intror Hx))). specialize (PO' q (or_introl eq_refl)).
      apply andb_true_iff in PO' as [A B]. apply Z.leb_le in A. apply Z.leb_le in B. lia. }
    pose proof (PO (l, r) (or_introl eq_refl)) as A. simpl in A. apply andb_true_iff in A as [A B].
    apply Z.leb_le in A. apply Z.leb_le in B.
    unfold edge_sh. simpl. f_equal; [lia|]. apply IH; auto; lia.
  - destruct (forallb _ pads); [injection H as <-; reflexivity|].
    unfold nd_edge_pad in H. do 3 (apply bind_ok in H as (? & _ & H)). injection H as <-. reflexivity.
Qed.

End FastPad.
