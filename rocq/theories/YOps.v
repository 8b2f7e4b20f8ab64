(** Evaluation and types of array expressions, node by node, and values of
    several leaves with named axes. *)
From Verif Require Import Base Scalar Tensor Types Sym Phi Den TypesFacts Typing NdOps NdFacts Yarr Axial AxialFacts AxialOps Codegen IndexOps.

Section YOps.
Context {FO : FloatOps} {EX : Externs} {PO : PadOps}.

(** * Lists with one item *)

Lemma mapM_put_at {A B} (f : A -> res B) x y n p : f x = Ok y ->
  mapM (omapM f) (put_at n p x) = Ok (put_at n p y).
Proof.
  intros H. unfold put_at.
  assert (R : forall m, mapM (omapM f) (repeat None m) = Ok (repeat None m)).
  { induction m; simpl; auto. rewrite IHm. reflexivity. }
  assert (G : forall m l l', mapM (omapM f) l = Ok l' -> mapM (omapM f) (repeat None m ++ l) = Ok (repeat None m ++ l')).
  { induction m; simpl; intros l l' Hl; auto. rewrite (IHm _ _ Hl). reflexivity. }
  apply G. simpl. rewrite H, R. reflexivity.
Qed.

Lemma the_item_none m : forall q, the_item q (repeat None m) = Some None.
Proof. induction m; simpl; auto. Qed.

Lemma the_item_put n p (a : arr) : the_item 0 (put_at n p a) = Some (Some (p, a)).
Proof.
  unfold put_at.
  assert (G : forall m q, the_item q (repeat None m ++ Some a :: repeat None (n - p - 1)) = Some (Some (m + q, a))).
  { induction m; intros q; simpl; [rewrite the_item_none; auto|]. rewrite IHm. do 3 f_equal. lia. }
  rewrite G. do 3 f_equal. lia.
Qed.

Lemma put_at_max n p (q : pat) : p < n ->
  list_max (map (fun o : option pat => match o with Some q => fst q | None => 0 end) (put_at n p q)) = fst q.
Proof.
  intros _. unfold put_at. rewrite map_app. cbn [map].
  assert (R : forall m, map (fun o : option pat => match o with Some q => fst q | None => 0 end) (repeat None m) = repeat 0 m)
    by (induction m; simpl; congruence).
  rewrite !R, list_max_app. cbn [list_max fold_right]. 
  assert (Z0 : forall m, list_max (repeat 0 m) = 0) by (induction m; simpl; auto).
  change (Nat.max (list_max (repeat 0 p)) (Nat.max (fst q) (list_max (repeat 0 (n - p - 1)))) = fst q).
  rewrite !Z0. lia.
Qed.

Lemma put_at_count {A} n p (q : A) :
  length (filter (fun o => match o with Some _ => true | None => false end) (put_at n p q)) = 1.
Proof.
  unfold put_at. 
  assert (R : forall m, filter (fun o : option A => match o with Some _ => true | None => false end) (repeat None m) = [])
    by (induction m; simpl; congruence).
  induction p; cbn [repeat app filter].
  - rewrite R. reflexivity.
  - rewrite Nat.sub_succ_r in IHp. replace (n - S p - 1) with (n - p - 1 - 1) by lia.
    clear IHp. assert (G : forall m l, filter (fun o : option A => match o with Some _ => true | None => false end) (repeat None m ++ l) =
      filter (fun o : option A => match o with Some _ => true | None => false end) l) by (induction m; simpl; auto).
    rewrite G. cbn [filter]. rewrite R. reflexivity.
Qed.

Lemma pads_put m k l r :
  combine (map (fun o => match o with Some z => z | None => 0%Z end) (put_at (m + S k) m l))
          (map (fun o => match o with Some z => z | None => 0%Z end) (put_at (m + S k) m r))
  = pads_at m k l r.
Proof.
  unfold put_at, pads_at. replace (m + S k - m - 1) with k by lia.
  induction m; simpl.
  - f_equal. induction k; simpl; congruence.
  - f_equal. exact IHm.
Qed.

(** * Evaluation *)

Variable X : list nat.
Variable r : yenv.
Notation yok := (yok X r).

Lemma yok_const a : yok (YConst a) [a].
Proof. split; auto. Qed.

Lemma yok_dim ax y a d : yok y [a] -> nth_error (ashape a) ax = Some d ->
  yok (YDim ax y) [ascalar (SI (Z.of_nat d))].
Proof.
  intros [H T] E. split.
  - intros r' Hr. cbn [yeval]. rewrite (H r' Hr). cbn. unfold nd_dim. rewrite E. reflexivity.
  - cbn [ytyp]. rewrite T. cbn [bind map single aty fst snd].
    assert (L : ax < length (ashape a)) by (apply nth_error_Some; congruence).
    apply Nat.ltb_lt in L. rewrite L. reflexivity.
Qed.

Lemma yok_range y z : yok y [ascalar (SI z)] -> yok (YRange y) [nd_range z].
Proof.
  intros [H T]. split.
  - intros r' Hr. cbn [yeval]. rewrite (H r' Hr). cbn. reflexivity.
  - cbn [ytyp]. rewrite T. reflexivity.
Qed.

Lemma yok_squeeze axes y a b : yok y [a] -> nd_squeeze axes a = Ok b ->
  length (ashape b) + length axes = length (ashape a) -> akind b = akind a -> yok (YSqueeze axes y) [b].
Proof.
  intros [H T] E L K. split.
  - intros r' Hr. cbn [yeval]. rewrite (H r' Hr). cbn. rewrite E. reflexivity.
  - cbn [ytyp]. rewrite T. cbn [bind map]. unfold nd_squeeze in E. apply bind_ok in E as (u & E & _).
    apply guard_ok in E. apply andb_true_iff in E as [-> _]. cbn [guard bind single rank_down mapM aty fst snd].
    assert (L' : length axes <= length (ashape a)) by lia. apply Nat.leb_le in L'. unfold rank_down. cbn [mapM fst snd]. rewrite L'. cbn.
    unfold aty. rewrite K. replace (length (ashape a) - length axes) with (length (ashape b)) by lia. reflexivity.
Qed.

Lemma yok_gather ax y i a b c : yok y [a] -> yok i [b] -> nd_gather ax a b = Ok c ->
  length (ashape c) = length (ashape a) -> akind c = akind a -> yok (YGather ax y i) [c].
Proof.
  intros [H T] [H' T'] E L K. split.
  - intros r' Hr. cbn [yeval]. rewrite (H r' Hr), (H' r' Hr). cbn. rewrite E. reflexivity.
  - cbn [ytyp]. rewrite T, T'. cbn [bind map single aty fst snd]. unfold nd_gather in E.
    apply bind_ok in E as (? & G1 & E). apply bind_ok in E as (? & G2 & E). apply bind_ok in E as (? & G3 & E).
    apply guard_ok in G1. apply guard_ok in G2. apply guard_ok in G3. unfold arank in *.
    rewrite G1, G2, G3. cbn. unfold aty. rewrite L, K. reflexivity.
Qed.

Lemma yok_take y i a b c p : yok y [a] -> yok i [b] -> nd_take1 p a b = Ok c -> p < arank a ->
  length (ashape c) + 1 = length (ashape a) + length (ashape b) -> akind c = akind a ->
  yok (YTake y (put_at (arank a) p i)) [c].
Proof.
  intros [H T] [H' T'] E Hp L K. split.
  - intros r' Hr. cbn [yeval]. rewrite (H r' Hr). cbn [bind pack].
    rewrite mapM_put_at with (y := b) by (rewrite (H' r' Hr); reflexivity). cbn [bind ya].
    unfold nd_take. rewrite put_at_length, Nat.eqb_refl by auto. cbn [guard bind].
    rewrite the_item_put, E. reflexivity.
  - cbn [ytyp]. rewrite T. cbn [bind map single].
    rewrite mapM_put_at with (y := aty b) by (rewrite T'; reflexivity). cbn [bind].
    rewrite put_at_length by auto. rewrite put_at_max, put_at_count by auto.
    unfold aty at 1 2 3 4 5. cbn [fst snd]. unfold arank in *. rewrite Nat.eqb_refl.
    assert ((length (ashape a) =? 0) = false) as -> by (apply Nat.eqb_neq; lia). cbn [guard bind negb].
    assert ((1 <=? length (ashape a) + length (ashape b)) = true) as -> by (apply Nat.leb_le; lia).
    cbn [guard bind]. unfold aty. rewrite K.
    replace (length (ashape a) + length (ashape b) - 1) with (length (ashape c)) by lia. reflexivity.
Qed.

Lemma yok_slice y a c p s1 s2 z1 z2 : yok y [a] -> yok s1 [ascalar (SI z1)] -> yok s2 [ascalar (SI z2)] ->
  nd_slice (put_at (arank a) p z1) (put_at (arank a) p z2) a = Ok c -> p < arank a ->
  length (ashape c) = length (ashape a) -> akind c = akind a ->
  yok (YSlice y (put_at (arank a) p s1) (put_at (arank a) p s2)) [c].
Proof.
  intros [H T] [H1 T1] [H2 T2] E Hp L K. split.
  - intros r' Hr. cbn [yeval]. rewrite (H r' Hr). cbn [bind pack].
    rewrite mapM_put_at with (y := z1) by (rewrite (H1 r' Hr); reflexivity).
    rewrite mapM_put_at with (y := z2) by (rewrite (H2 r' Hr); reflexivity). cbn [bind ya].
    rewrite E. reflexivity.
  - cbn [ytyp]. rewrite T. cbn [bind map single].
    rewrite (mapM_put_at _ _ _ _ _ T1), (mapM_put_at _ _ _ _ _ T2). cbn [bind].
    rewrite !put_at_length by auto. unfold arank, aty at 1 2. cbn [fst snd]. rewrite Nat.eqb_refl. cbn.
    unfold aty. rewrite L, K. reflexivity.
Qed.

Lemma yok_pad y a c m k s1 s2 z1 z2 : yok y [a] -> yok s1 [ascalar (SI z1)] -> yok s2 [ascalar (SI z2)] ->
  pad_call a (pads_at m k z1 z2) = Ok c -> arank a = m + S k ->
  length (ashape c) = length (ashape a) -> akind c = akind a ->
  yok (YPad y (put_at (arank a) m s1) (put_at (arank a) m s2)) [c].
Proof.
  intros [H T] [H1 T1] [H2 T2] E Hp L K. split.
  - intros r' Hr. cbn [yeval]. rewrite (H r' Hr). cbn [bind pack].
    rewrite mapM_put_at with (y := z1) by (rewrite (H1 r' Hr); reflexivity).
    rewrite mapM_put_at with (y := z2) by (rewrite (H2 r' Hr); reflexivity). cbn [bind ya].
    rewrite Hp, pads_put, E. reflexivity.
  - cbn [ytyp]. rewrite T. cbn [bind map single].
    rewrite (mapM_put_at _ _ _ _ _ T1), (mapM_put_at _ _ _ _ _ T2). cbn [bind].
    rewrite !put_at_length by lia. unfold arank, aty at 1 2. cbn [fst snd]. rewrite Nat.eqb_refl. cbn.
    unfold aty. rewrite L, K. reflexivity.
Qed.

Lemma yok_concat y1 y2 a b c ax : yok y1 [a] -> yok y2 [b] -> nd_concat ax [a; b] = Ok c ->
  length (ashape b) = length (ashape a) -> length (ashape c) = length (ashape a) ->
  akind b = akind a -> akind c = akind a ->
  yok (YConcat [y1; y2] ax) [c].
Proof.
  intros [H T] [H' T'] E L1 L2 K1 K2. split.
  - intros r' Hr. cbn [yeval mapM]. rewrite (H r' Hr), (H' r' Hr). cbn [bind mapM ya pack]. rewrite E. reflexivity.
  - cbn [ytyp mapM]. rewrite T, T'. cbn [bind mapM map single forallb].
    unfold pat_eqb, aty. cbn [fst snd]. rewrite L1, K1, L2, K2, Nat.eqb_refl, kind_eqb_refl. reflexivity.
Qed.

Lemma yok_cast y a : yok y [a] ->
  yok (YCast KFloat y) [tab KFloat (ashape a) (fun idx => to_float (get a idx))].
Proof.
  intros [H T]. split.
  - intros r' Hr. cbn [yeval]. rewrite (H r' Hr). reflexivity.
  - cbn [ytyp]. rewrite T. reflexivity.
Qed.

Lemma zip_bdim_length a b l : zip_bdim a b = Ok l -> length l = length b.
Proof.
  revert b l. induction a as [|x a IH]; destruct b as [|y b]; simpl; intros l H; inv_bind; auto.
  simpl. f_equal. eauto.
Qed.

Lemma zip_all_length n l sh : zip_all n l = Ok sh -> length sh = n.
Proof.
  revert sh. induction l as [|x l IH]; simpl; intros sh H; inv_bind.
  - apply repeat_length.
  - rewrite (zip_bdim_length _ _ _ Hk). auto.
Qed.

Lemma nd_ew_type kf sf ops b : nd_ew kf sf ops = Ok b ->
  length (ashape b) = list_max (map (fun a => length (ashape a)) ops) /\
  kf (map akind ops) = Some (akind b).
Proof.
  intros H. unfold nd_ew in H. inv_bind. split.
  - simpl. unfold broadcast_shapes in Hb. apply zip_all_length in Hb. rewrite map_map in Hb. auto.
  - simpl. auto.
Qed.

Lemma yok_un o y a b : yok y [a] -> nd_un o a = Ok b -> yok (YUn o y) [b].
Proof.
  intros [H T] E. split.
  - intros r' Hr. cbn [yeval]. rewrite (H r' Hr). cbn. rewrite E. reflexivity.
  - cbn [ytyp]. rewrite T. apply nd_ew_type in E as [L K]. cbn [map kf1] in K. unfold ew_type.
    cbn [bind map mapM single aty snd fst]. rewrite resolve_un, K. cbn [bind].
    unfold aty. cbn [map] in L. rewrite L. reflexivity.
Qed.

Lemma yok_bin o y1 y2 a1 a2 b i : yok y1 [a1] -> yok y2 [a2] -> nd_bin o a1 a2 = Ok b -> yok (YBin o y1 y2 i) [b].
Proof.
  intros [H T] [H' T'] E. split.
  - intros r' Hr. cbn [yeval]. rewrite (H r' Hr), (H' r' Hr). cbn. rewrite E. reflexivity.
  - cbn [ytyp]. rewrite T, T'. apply nd_ew_type in E as [L K]. cbn [map kf2] in K. unfold ew_type.
    cbn [bind map mapM single aty snd fst]. rewrite resolve_bin, K. cbn [bind].
    unfold aty. cbn [map] in L. rewrite L. reflexivity.
Qed.

Lemma yok_where y0 y1 y2 a0 a1 a2 b : yok y0 [a0] -> yok y1 [a1] -> yok y2 [a2] -> nd_where a0 a1 a2 = Ok b ->
  yok (YWhere y0 y1 y2) [b].
Proof.
  intros [H0 T0] [H T] [H' T'] E. split.
  - intros r' Hr. cbn [yeval]. rewrite (H0 r' Hr), (H r' Hr), (H' r' Hr). cbn. rewrite E. reflexivity.
  - cbn [ytyp]. rewrite T0, T, T'. apply nd_ew_type in E as [L K]. cbn [map kf3] in K. unfold ew_type.
    cbn [bind map mapM single aty snd fst]. rewrite resolve_where, K. cbn [bind].
    unfold aty. cbn [map] in L. rewrite L. reflexivity.
Qed.

(** Integer scalars *)
Lemma nd_bin_int o z1 z2 z : sem_bin o (SI z1) (SI z2) = Some (SI z) ->
  nd_bin o (ascalar (SI z1)) (ascalar (SI z2)) = Ok (ascalar (SI z)).
Proof.
  intros H. unfold nd_bin, nd_ew, ascalar.
  assert (K : kind_bin o KInt KInt = Some KInt) by (pose proof (sem_bin_kind o (SI z1) (SI z2)) as Q; rewrite H in Q; symmetry; exact Q).
  cbn [map ashape broadcast_shapes akind skind kf2]. rewrite K. cbn. rewrite H. reflexivity.
Qed.

Lemma yok_int z : yok (yint z) [ascalar (SI z)].
Proof. apply yok_const. Qed.
Lemma yok_ibin o y1 y2 z1 z2 z : yok y1 [ascalar (SI z1)] -> yok y2 [ascalar (SI z2)] ->
  sem_bin o (SI z1) (SI z2) = Some (SI z) -> yok (ybin o y1 y2) [ascalar (SI z)].
Proof. intros H1 H2 H. eapply yok_bin; eauto. apply nd_bin_int; auto. Qed.

Lemma pack_one a : pack [a] = YA a.
Proof. reflexivity. Qed.
Lemma pack_many l : length l <> 1 -> pack l = YT l.
Proof. destruct l as [|a [|b l]]; simpl; congruence. Qed.

Lemma yok_arrays ys l : Forall2 (fun y a => yok y [a]) ys l ->
  (forall r', agree X r r' -> (let* vs := mapM (yeval r') ys in mapM ya vs) = Ok l) /\
  (let* ps := mapM ytyp ys in mapM single ps) = Ok (map aty l) /\
  mapM ytyp ys = Ok (map (fun a => [aty a]) l).
Proof.
  intros F. split; [|split].
  - intros r' Hr. assert (M : mapM (yeval r') ys = Ok (map YA l)).
    { apply mapM_Forall2. induction F as [|y a ys l [H _] F IH]; simpl; constructor; auto. }
    rewrite M. cbn [bind]. clear. induction l; simpl; auto. rewrite IHl. reflexivity.
  - assert (M : mapM ytyp ys = Ok (map (fun a => [aty a]) l)).
    { apply mapM_Forall2. induction F as [|y a ys l [_ H] F IH]; simpl; constructor; auto. }
    rewrite M. cbn [bind]. clear. induction l; simpl; auto. rewrite IHl. reflexivity.
  - apply mapM_Forall2. induction F as [|y a ys l [_ H] F IH]; simpl; constructor; auto.
Qed.

Lemma yok_tuple ys l : Forall2 (fun y a => yok y [a]) ys l -> length l <> 1 -> yok (YTuple ys) l.
Proof.
  intros F L. destruct (yok_arrays _ _ F) as (A & B & _). split.
  - intros r' Hr. cbn [yeval]. specialize (A r' Hr). apply bind_ok in A as (vs & A1 & A2). rewrite A1. cbn [bind]. rewrite A2. cbn [bind].
    rewrite pack_many; auto.
  - cbn [ytyp]. exact B.
Qed.

Lemma yok_tms ys l : Forall2 (fun y a => yok y [a]) ys l -> yok (tuple_maybe_singleton ys) l.
Proof.
  intros F. destruct F as [|y a ys l Hy F].
  - apply yok_tuple; [constructor|discriminate].
  - destruct F as [|y' a' ys l Hy' F]; [exact Hy|].
    change (tuple_maybe_singleton (y :: y' :: ys)) with (YTuple (y :: y' :: ys)).
    apply yok_tuple; [constructor; [auto|constructor; auto]|discriminate].
Qed.

Definition dleaf : arr := ascalar (SI 0%Z).

Lemma yok_untuple y l j : yok y l -> length l <> 1 -> j < length l -> yok (YUntuple j (length l) y) [nth j l dleaf].
Proof.
  intros [H T] L Hj. assert (E : nth_error l j = Some (nth j l dleaf)) by (apply nth_error_nth'; auto).
  split.
  - intros r' Hr. cbn [yeval]. rewrite (H r' Hr), pack_many by auto. cbn [bind]. rewrite E. reflexivity.
  - cbn [ytyp]. rewrite T. cbn [bind]. rewrite map_length, Nat.eqb_refl. cbn [guard bind].
    rewrite nth_error_map, E. reflexivity.
Qed.

Lemma yok_ums y l j : yok y l -> j < length l -> yok (untuple_maybe_singleton (length l) y j) [nth j l dleaf].
Proof.
  intros H Hj. unfold untuple_maybe_singleton. destruct (length l =? 1) eqn:E.
  - apply Nat.eqb_eq in E. destruct l as [|a [|b l]]; try discriminate. destruct j; [exact H|simpl in Hj; lia].
  - apply Nat.eqb_neq in E. apply yok_untuple; auto.
Qed.

End YOps.

Section YBind.
Context {FO : FloatOps} {EX : Externs} {PO : PadOps}.

Lemma yok_weaken X X' r r' y l : yok X r y l -> incl X X' -> agree X r r' -> yok X' r' y l.
Proof.
  intros [H T] IN AG. split; auto. intros r2 H2. apply H. intros x Hx. rewrite (AG x Hx). apply H2. auto.
Qed.

Lemma agree_upd X r x v : ~ In x X -> agree X r (upd r (SV x) v).
Proof. intros H y Hy. rewrite upd_neq; auto. intros E. injection E as ->. auto. Qed.

Lemma agree_trans X r1 r2 r3 : agree X r1 r2 -> agree X r2 r3 -> agree X r1 r3.
Proof. intros H1 H2 x Hx. rewrite (H1 x Hx). auto. Qed.

Lemma agree_bind X r r' x v : agree X r r' -> agree (x :: X) (upd r (SV x) v) (upd r' (SV x) v).
Proof.
  intros H y [<-|Hy]; [rewrite !upd_eq; auto|].
  destruct (Nat.eq_dec y x) as [->|N]; [rewrite !upd_eq; auto|].
  rewrite !upd_neq by (intros E; injection E; auto). auto.
Qed.

Lemma yok_let X r x yb y lb l : yok X r yb lb -> yok (x :: X) (upd r (SV x) (pack lb)) y l ->
  yok X r (YLet x yb y) l.
Proof.
  intros [H T] [H' T']. split.
  - intros r' Hr. cbn [yeval]. rewrite (H r' Hr). cbn [bind]. apply H'. apply agree_bind; auto.
  - cbn [ytyp]. rewrite T. cbn [bind]. exact T'.
Qed.

Lemma pty_eqb_refl p : pty_eqb p p = true.
Proof. induction p as [|[n k] p IH]; simpl; auto. rewrite IH. unfold pat_eqb. rewrite Nat.eqb_refl, kind_eqb_refl. auto. Qed.
Lemma pty_eqb_eq p q : pty_eqb p q = true -> p = q.
Proof.
  revert q. induction p as [|[n k] p IH]; destruct q as [|[m j] q]; simpl; intros H; try discriminate; auto.
  apply andb_true_iff in H as [H1 H2]. unfold pat_eqb in H1. apply andb_true_iff in H1 as [A B]. simpl in *.
  apply Nat.eqb_eq in A. apply kind_eqb_eq in B. f_equal; auto. congruence.
Qed.

Lemma yok_fold X r c size acc init body z (L : nat -> list arr) :
  yok X r size [ascalar (SI z)] -> yok X r init (L 0) ->
  ytyp body = Ok (map aty (L 0)) ->
  (forall k, k < Z.to_nat z ->
     yok (c :: acc :: X) (upd (upd r (SV acc) (pack (L k))) (SV c) (YA (ascalar (SI (Z.of_nat k))))) body (L (S k))) ->
  map aty (L (Z.to_nat z)) = map aty (L 0) ->
  yok X r (YFold c size acc init body) (L (Z.to_nat z)).
Proof.
  intros [Hs Ts] [Hi Ti] Tb Hb HT. split.
  - intros r' Hr. cbn [yeval]. rewrite (Hi r' Hr), (Hs r' Hr). cbn [bind pack ya as_int].
    change (as_int (ascalar (SI z))) with (Ok z). cbn [bind].
    assert (G : forall n k, k + n <= Z.to_nat z -> iter_res
      (fun k v => yeval (upd (upd r' (SV acc) v) (SV c) (YA (ascalar (SI (Z.of_nat k))))) body) k n (pack (L k))
      = Ok (pack (L (k + n)))).
    { induction n as [|n IH]; intros k Hk; simpl; [rewrite Nat.add_0_r; auto|].
      rewrite (proj1 (Hb k ltac:(lia))).
      - cbn [bind]. rewrite IH by lia. do 3 f_equal. lia.
      - apply agree_bind. apply agree_bind. auto. }
    apply (G (Z.to_nat z) 0). lia.
  - cbn [ytyp]. rewrite Ts, Ti, Tb. cbn [bind map single aty fst snd ascalar ashape length guard Nat.eqb].
    rewrite pty_eqb_refl. cbn [guard bind]. rewrite HT; reflexivity.
Qed.

Lemma yok_ext X r f ys l a p : Forall2 (fun y a => yok X r y [a]) ys l -> ext_call f l = Ok a ->
  p = [aty a] -> yok X r (YExt p f ys) [a].
Proof.
  intros F E P. destruct (yok_arrays _ _ _ _ F) as (A & _ & B). split.
  - intros r' Hr. cbn [yeval]. specialize (A r' Hr). apply bind_ok in A as (vs & A1 & A2). rewrite A1. cbn [bind]. rewrite A2. cbn [bind].
    rewrite E. reflexivity.
  - cbn [ytyp]. rewrite B. cbn [bind]. rewrite P. reflexivity.
Qed.

End YBind.

(** * Values of several leaves *)

Section Vrep.
Context {FO : FloatOps} {EX : Externs} {PO : PadOps}.

Fixpoint vleaves (v : val) : list arr :=
  match v with
  | VArr a => [a]
  | VPair v w => vleaves v ++ vleaves w
  end.

Lemma vleaves_pos v : 1 <= length (vleaves v).
Proof. induction v; simpl; [lia|]. rewrite app_length. lia. Qed.

Lemma vleaves_one v : length (vleaves v) = 1 -> exists a, v = VArr a.
Proof.
  destruct v as [a|v w]; [eauto|]. simpl. rewrite app_length.
  pose proof (vleaves_pos v). pose proof (vleaves_pos w). lia.
Qed.

Definition leaf (V : asg -> val) (j : nat) : asg -> arr := fun s => nth j (vleaves (V s)) dleaf.

Definition vfrep (N : nat -> nat) (I : list nat) (P : nat -> bool) (into : list nat) (l : list arr) (V : asg -> val) : Prop :=
  (forall s, wv N I s -> length (vleaves (V s)) = length l) /\
  forall j, j < length l -> exists rest k, frep N I P into rest k (nth j l dleaf) (leaf V j).

(** [l] with leading axes [ax] represents the values [V]. *)
Definition vrep (N : nat -> nat) (I : list nat) (ax : list nat) (l : list arr) (V : asg -> val) : Prop :=
  NoDup ax /\ incl ax I /\ vfrep N I all_axes ax l V.

Lemma vfrep_ext N I P P' into l V V' : (forall i, In i into -> P i = P' i) ->
  (forall s, wv N I s -> V s = V' s) -> vfrep N I P into l V -> vfrep N I P' into l V'.
Proof.
  intros HP HV [H1 H2]. split.
  - intros s Hs. rewrite <- HV by auto. auto.
  - intros j Hj. destruct (H2 j Hj) as (rest & k & F). exists rest, k. eapply frep_ext; [| |exact F]; auto.
    intros s Hs. unfold leaf. rewrite HV by auto. auto.
Qed.

Lemma vrep_ext N I ax l V V' : (forall s, wv N I s -> V s = V' s) -> vrep N I ax l V -> vrep N I ax l V'.
Proof. intros H (A & B & C). split; auto. split; auto. eapply vfrep_ext; eauto. Qed.

(** one leaf *)
Lemma vfrep_one N I P into rest k b A V : (forall s, wv N I s -> V s = VArr (A s)) ->
  frep N I P into rest k b A -> vfrep N I P into [b] V.
Proof.
  intros HV F. split.
  - intros s Hs. rewrite HV by auto. reflexivity.
  - intros j Hj. assert (j = 0) by (simpl in Hj; lia). subst j. exists rest, k. simpl.
    eapply frep_ext; [| |exact F]; auto. intros s Hs. unfold leaf. rewrite HV by auto. reflexivity.
Qed.

Lemma vfrep_one_inv N I P into b V : vfrep N I P into [b] V ->
  exists rest k, frep N I P into rest k b (leaf V 0) /\ forall s, wv N I s -> V s = VArr (leaf V 0 s).
Proof.
  intros [H1 H2]. destruct (H2 0 ltac:(simpl; lia)) as (rest & k & F). exists rest, k. split; auto.
  intros s Hs. specialize (H1 s Hs). simpl in H1. apply vleaves_one in H1 as (a & E).
  unfold leaf. rewrite E. reflexivity.
Qed.

(** sizes of the indices in scope only *)
Lemma wv_N N N' I s : (forall i, In i I -> N i = N' i) -> wv N I s -> wv N' I s.
Proof. intros H W i Hi. rewrite <- H by auto. auto. Qed.

Lemma frep_N N N' I I' P into rest k b A : (forall i, In i I -> N i = N' i) -> incl I I' -> incl into I ->
  frep N I P into rest k b A -> frep N' I' P into rest k b A.
Proof.
  intros HN II IN [W K S M G].
  assert (HW : forall s, wv N' I' s -> wv N I s).
  { intros s Hs. apply wv_N with (N := N'); [intros; symmetry; auto|]. eapply wv_sub; eauto. }
  constructor; auto.
  - rewrite S. f_equal. apply map_ext_in. intros i Hi. rewrite HN; auto.
  - intros s Hs Hlt. apply G; auto. intros i Hi Hp. rewrite HN; auto.
Qed.

Lemma vrep_N N N' I I' ax l V : (forall i, In i I -> N i = N' i) -> incl I I' ->
  vrep N I ax l V -> vrep N' I' ax l V.
Proof.
  intros HN II (A & B & C & D). split; auto. split; [intros x Hx; auto|].
  assert (HW : forall s, wv N' I' s -> wv N I s).
  { intros s Hs. apply wv_N with (N := N'); [intros; symmetry; auto|]. eapply wv_sub; eauto. }
  split; auto. intros j Hj. destruct (D j Hj) as (rest & k & F). exists rest, k. eapply frep_N; eauto.
Qed.

(** types *)
Lemma leaves_push t : forall q, leaves q (push_vec t) = leaves (S q) t.
Proof. induction t as [k|e IH|a IHa b IHb]; intros q; simpl; auto. rewrite IHa, IHb. auto. Qed.
Lemma leaves_dist t : forall q, leaves q (dist t) = leaves q t.
Proof.
  induction t as [k|e IH|a IHa b IHb]; intros q; simpl; auto.
  - rewrite leaves_push. auto.
  - rewrite IHa, IHb. auto.
Qed.
Lemma leaves_vtype v : leaves 0 (vtype v) = map aty (vleaves v).
Proof.
  induction v as [a|v IHv w IHw]; simpl.
  - rewrite leaves_ndarray, Nat.add_0_r. reflexivity.
  - rewrite IHv, IHw, map_app. reflexivity.
Qed.
Lemma has_type_leaves v t : has_type v t -> map aty (vleaves v) = leaves 0 t.
Proof. intros [_ H]. rewrite <- leaves_vtype, H. apply leaves_dist. Qed.

Lemma rank_up_0 p : rank_up 0 p = p.
Proof. unfold rank_up. rewrite <- (map_id p) at 2. apply map_ext. intros [n k]. simpl. f_equal. lia. Qed.

Lemma vrep_types N I ax l V s : vrep N I ax l V -> wv N I s ->
  map aty l = rank_up (length ax) (map aty (vleaves (V s))).
Proof.
  intros (_ & _ & L & H) Hs. unfold rank_up. rewrite map_map. specialize (L s Hs).
  apply nth_ext with (d := aty dleaf) (d' := (fun q => (fst (aty q) + length ax, snd (aty q))) dleaf).
  - rewrite !map_length. auto.
  - intros j Hj. rewrite map_length in Hj. rewrite !map_nth.
    change ((fun q => (fst (aty q) + length ax, snd (aty q))) dleaf) with ((fun x : arr => (fst (aty x) + length ax, snd (aty x))) dleaf).
    rewrite (map_nth (fun x : arr => (fst (aty x) + length ax, snd (aty x)))).
    destruct (H j Hj) as (rest & k & F). unfold aty. cbn [fst snd].
    destruct (fr_mem _ _ _ _ _ _ _ _ F s Hs) as (_ & K & S). unfold leaf in K, S.
    rewrite K, S, (fr_kind _ _ _ _ _ _ _ _ F), (fr_shape _ _ _ _ _ _ _ _ F), app_length, map_length. f_equal. lia.
Qed.

(** alignment of all leaves *)
Lemma aligned_ok N I X r a into leftpad repeats y' l V :
  aligned a into leftpad repeats = Ok y' ->
  sizes_ok N I X r repeats -> NoDup into -> incl into I ->
  yok X r (ax_expr a) l -> vrep N I (ax_axes a) l V ->
  exists l', yok X r y' l' /\ length l' = length l /\
    (forall j, j < length l -> forall rest k, frep N I all_axes (ax_axes a) rest k (nth j l dleaf) (leaf V j) ->
       frep N I (fun i => mem i (ax_axes a) || has repeats i) (into_axes leftpad (ax_axes a) into) rest k
         (nth j l' dleaf) (leaf V j)) /\
    vfrep N I (fun i => mem i (ax_axes a) || has repeats i) (into_axes leftpad (ax_axes a) into) l' V.
Proof.
  intros H SO N2 II Hy (N1 & IN & L & HF).
  assert (G : exists l', yok X r y' l' /\ length l' = length l /\
    (forall j, j < length l -> forall rest k, frep N I all_axes (ax_axes a) rest k (nth j l dleaf) (leaf V j) ->
       frep N I (fun i => mem i (ax_axes a) || has repeats i) (into_axes leftpad (ax_axes a) into) rest k
         (nth j l' dleaf) (leaf V j))).
  { unfold aligned in H. rewrite (proj2 Hy) in H. cbn [bind] in H. rewrite map_length in H.
    assert (DET : forall (P : nat -> bool) into' j rest k rest' k' b b', j < length l ->
      frep N I all_axes (ax_axes a) rest k b (leaf V j) -> frep N I P into' rest' k' b' (leaf V j) -> rest = rest' /\ k = k').
    { intros P into' j rest k rest' k' b b' Hj F1 F2.
      destruct (fr_mem _ _ _ _ _ _ _ _ F1 _ (wv_zero N I)) as (_ & K1 & S1).
      destruct (fr_mem _ _ _ _ _ _ _ _ F2 _ (wv_zero N I)) as (_ & K2 & S2). split; congruence. }
    destruct (length l =? 1) eqn:E.
    - apply Nat.eqb_eq in E. destruct l as [|b [|b2 l]]; try discriminate.
      destruct (HF 0 ltac:(simpl; lia)) as (rest & k & F). simpl in F.
      destruct (align_ok N I X r _ _ _ _ _ _ _ _ _ _ H SO N1 N2 II Hy F) as (b' & Y' & F').
      exists [b']. split; auto. split; auto. intros j Hj rest' k' F2. assert (j = 0) by (simpl in Hj; lia). subst j. simpl in *.
      destruct (DET _ _ 0 _ _ _ _ _ _ ltac:(simpl; lia) F F2). subst. auto.
    - apply Nat.eqb_neq in E. inv_bind. rename a0 into ys. 
      assert (G : Forall2 (fun j y => exists b, yok X r y [b] /\
          forall rest k, frep N I all_axes (ax_axes a) rest k (nth j l dleaf) (leaf V j) ->
           frep N I (fun i => mem i (ax_axes a) || has repeats i) (into_axes leftpad (ax_axes a) into) rest k
             b (leaf V j)) (seq 0 (length l)) ys).
      { apply mapM_Forall2 in Hb. assert (HS : Forall (fun j => j < length l) (seq 0 (length l))).
        { apply Forall_forall. intros j Hj. apply in_seq in Hj. lia. }
        induction Hb as [|j y js ys Hj Hb IH]; constructor.
        - inversion HS as [|? ? Hjl HS']; subst. destruct (HF j Hjl) as (rest & k & F).
          pose proof (yok_untuple X r _ _ j Hy E Hjl) as Hu.
          destruct (align_ok N I X r _ _ _ _ _ _ _ _ _ _ Hj SO N1 N2 II Hu F) as (b' & Y' & F').
          exists b'. split; auto. intros rest' k' F2. destruct (DET _ _ j _ _ _ _ _ _ Hjl F F2). subst. auto.
        - apply IH. inversion HS; auto. }
      assert (G' : exists l', Forall2 (fun y b => yok X r y [b]) ys l' /\
         Forall2 (fun j b => forall rest k, frep N I all_axes (ax_axes a) rest k (nth j l dleaf) (leaf V j) ->
           frep N I (fun i => mem i (ax_axes a) || has repeats i) (into_axes leftpad (ax_axes a) into) rest k
             b (leaf V j)) (seq 0 (length l)) l').
      { clear Hb. induction G as [|j y js ys (b & Yb & Fb) G IH]; [exists []; split; constructor|].
        destruct IH as (l' & A1 & A2). exists (b :: l'). split; constructor; auto. }
      destruct G' as (l' & A1 & A2). exists l'.
      assert (LL : length l' = length l).
      { apply Forall2_len in A2. rewrite seq_length in A2. auto. }
      split; [apply yok_tuple; auto; lia|]. split; auto.
      intros j Hj rest k F. 
      assert (Q : j < length (seq 0 (length l))) by (rewrite seq_length; auto).
      pose proof (Forall2_nth _ _ _ j 0 dleaf A2 Q) as Q2.
      rewrite seq_nth in Q2 by auto. simpl in Q2. auto. }
  destruct G as (l' & Y' & LL & Q). exists l'. split; auto. split; auto. split; auto. split.
  - intros s Hs. rewrite LL. auto.
  - intros j Hj. rewrite LL in Hj. destruct (HF j Hj) as (rest & k & F). eauto.
Qed.

Lemma mk_axial_inv ax y a : mk_axial ax y = Ok a ->
  a = mkAxial ax y /\ NoDup ax /\ exists p, ytyp y = Ok p /\ Forall (fun q => length ax <= fst q) p.
Proof.
  unfold mk_axial. intros H. inv_bind. split; auto. split; [apply nodupb_NoDup; auto|].
  exists a1. split; auto. apply Forall_forall. intros q Hq. apply Nat.leb_le.
  rewrite forallb_forall in Hb1. auto.
Qed.

(** pairs *)
Lemma leaf_app_l V1 V2 j s : j < length (vleaves (V1 s)) -> leaf (fun s => VPair (V1 s) (V2 s)) j s = leaf V1 j s.
Proof. intros H. unfold leaf. simpl. apply app_nth1; auto. Qed.
Lemma leaf_app_r V1 V2 j s : length (vleaves (V1 s)) <= j ->
  leaf (fun s => VPair (V1 s) (V2 s)) j s = leaf V2 (j - length (vleaves (V1 s))) s.
Proof. intros H. unfold leaf. simpl. apply app_nth2; auto. Qed.

Lemma vfrep_pair N I P into l1 l2 V1 V2 : vfrep N I P into l1 V1 -> vfrep N I P into l2 V2 ->
  vfrep N I P into (l1 ++ l2) (fun s => VPair (V1 s) (V2 s)).
Proof.
  intros [L1 H1] [L2 H2]. split.
  - intros s Hs. simpl. rewrite !app_length, L1, L2; auto.
  - intros j Hj. rewrite app_length in Hj. destruct (le_lt_dec (length l1) j) as [Hle|Hlt].
    + destruct (H2 (j - length l1) ltac:(lia)) as (rest & k & F). exists rest, k.
      rewrite app_nth2 by auto. eapply frep_ext; [| |exact F]; auto.
      intros s Hs. rewrite leaf_app_r by (rewrite L1; auto). rewrite L1; auto.
    + destruct (H1 j Hlt) as (rest & k & F). exists rest, k.
      rewrite app_nth1 by auto. eapply frep_ext; [| |exact F]; auto.
      intros s Hs. rewrite leaf_app_l by (rewrite L1; auto). auto.
Qed.

Lemma vfrep_fst N I P into l V1 V2 n : vfrep N I P into l (fun s => VPair (V1 s) (V2 s)) ->
  (forall s, wv N I s -> length (vleaves (V1 s)) = n) -> n <= length l ->
  vfrep N I P into (firstn n l) V1 /\ vfrep N I P into (skipn n l) V2.
Proof.
  intros [L H] HL Hn. split; split.
  - intros s Hs. rewrite firstn_length, HL by auto. lia.
  - intros j Hj. rewrite firstn_length in Hj. destruct (H j ltac:(lia)) as (rest & k & F). exists rest, k.
    assert (E : nth j (firstn n l) dleaf = nth j l dleaf).
    { rewrite <- (firstn_skipn n l) at 2. rewrite app_nth1; auto. rewrite firstn_length. lia. }
    rewrite E. eapply frep_ext; [| |exact F]; auto.
    intros s Hs. apply leaf_app_l. rewrite HL by auto. lia.
  - intros s Hs. specialize (L s Hs). simpl in L. rewrite app_length, HL in L by auto. rewrite skipn_length. lia.
  - intros j Hj. rewrite skipn_length in Hj. destruct (H (n + j) ltac:(lia)) as (rest & k & F). exists rest, k.
    assert (E : nth j (skipn n l) dleaf = nth (n + j) l dleaf).
    { rewrite <- (firstn_skipn n l) at 2. rewrite app_nth2; rewrite firstn_length; [f_equal; lia|lia]. }
    rewrite E. eapply frep_ext; [| |exact F]; auto.
    intros s Hs. rewrite leaf_app_r by (rewrite HL by auto; lia). rewrite HL by auto. f_equal. lia.
Qed.

Lemma sizes_ok_nil N I X r : sizes_ok N I X r [].
Proof. intros i n _ H. discriminate. Qed.

Lemma alignment_incl args I : (forall ax, In ax args -> incl ax I) -> incl (alignment args) I.
Proof. intros H x Hx. apply alignment_In in Hx as (ax & H1 & H2). eapply H; eauto. Qed.

Lemma yok_leaves X r y l js : yok X r y l -> Forall (fun j => j < length l) js ->
  Forall2 (fun y a => yok X r y [a]) (map (untuple_maybe_singleton (length l) y) js) (map (fun j => nth j l dleaf) js).
Proof. intros H F. induction F; simpl; constructor; auto. apply yok_ums; auto. Qed.

Lemma nths_all (l : list arr) : map (fun j => nth j l dleaf) (seq 0 (length l)) = l.
Proof.
  induction l as [|x l IH]; simpl; auto. f_equal. rewrite <- seq_shift, map_map. exact IH.
Qed.

Lemma cons_ok N I X r a b c l1 l2 V1 V2 : cons_axial a b = Ok c ->
  (forall x, In x (ax_axes a) <-> In x (ax_axes b)) ->
  yok X r (ax_expr a) l1 -> vrep N I (ax_axes a) l1 V1 ->
  yok X r (ax_expr b) l2 -> vrep N I (ax_axes b) l2 V2 ->
  exists l, yok X r (ax_expr c) l /\ vrep N I (ax_axes c) l (fun s => VPair (V1 s) (V2 s)).
Proof.
  intros H SA Y1 R1 Y2 R2. unfold cons_axial in H.
  rewrite (proj2 Y1), (proj2 Y2) in H. cbn [bind] in H. rewrite !map_length in H.
  set (axes := alignment [ax_axes a; ax_axes b]) in *.
  assert (ND : NoDup axes) by apply alignment_NoDup.
  assert (II : incl axes I).
  { apply alignment_incl. intros ax [<-|[<-|[]]]; [apply R1|apply R2]. }
  apply bind_ok in H as (y1 & Hb & H). apply bind_ok in H as (y2 & Hb0 & H).
  apply mk_axial_inv in H as (-> & ND' & _).
  destruct (aligned_ok _ _ _ _ _ _ _ _ _ _ _ Hb (sizes_ok_nil N I X r) ND II Y1 R1) as (l1' & Y1' & L1' & _ & F1).
  destruct (aligned_ok _ _ _ _ _ _ _ _ _ _ _ Hb0 (sizes_ok_nil N I X r) ND II Y2 R2) as (l2' & Y2' & L2' & _ & F2).
  cbn [ax_axes ax_expr] in *.
  assert (IN : forall x, In x axes -> In x (ax_axes a) /\ In x (ax_axes b)).
  { intros x Hx. apply alignment_In in Hx as (ax & [<-|[<-|[]]] & Hx); [split; auto; apply SA; auto|split; auto; apply SA; auto]. }
  exists (l1' ++ l2'). split.
  - apply yok_tms. apply Forall2_app.
    + rewrite <- (nths_all l1'). rewrite <- L1'. apply yok_leaves; auto.
      apply Forall_forall. intros j Hj. apply in_seq in Hj. lia.
    + rewrite <- (nths_all l2'). rewrite <- L2'. apply yok_leaves; auto.
      apply Forall_forall. intros j Hj. apply in_seq in Hj. lia.
  - split; auto. split; auto. apply vfrep_pair.
    + eapply vfrep_ext; [| |exact F1]; auto. intros i Hi. apply IN in Hi as [Hi _]. apply mem_In in Hi. rewrite Hi. auto.
    + eapply vfrep_ext; [| |exact F2]; auto. intros i Hi. apply IN in Hi as [_ Hi]. apply mem_In in Hi. rewrite Hi. auto.
Qed.

Lemma map_nth_slice (l : list arr) a n : a + n <= length l ->
  map (fun j => nth j l dleaf) (seq a n) = firstn n (skipn a l).
Proof.
  revert l. induction a as [|a IH]; intros l H.
  - simpl. revert l H. induction n as [|n IHn]; intros l H; simpl; auto.
    destruct l as [|x l]; [simpl in H; lia|]. simpl. f_equal. rewrite <- seq_shift, map_map. apply IHn. simpl in H. lia.
  - destruct l as [|x l]; [simpl in H; lia|]. simpl. rewrite <- seq_shift, map_map. apply IH. simpl in H. lia.
Qed.

Lemma slice_tuple_ok X r a start stop a' l : slice_tuple a start stop = Ok a' -> yok X r (ax_expr a) l ->
  ax_axes a' = ax_axes a /\ stop <= length l /\ start <= stop /\
  yok X r (ax_expr a') (firstn (stop - start) (skipn start l)).
Proof.
  intros H Y. unfold slice_tuple in H. rewrite (proj2 Y) in H. cbn [bind] in H. rewrite map_length in H.
  apply bind_ok in H as (u & G & H). apply guard_ok in G. apply andb_true_iff in G as [G1 G2].
  apply Nat.leb_le in G1. apply Nat.leb_le in G2.
  apply mk_axial_inv in H as (-> & _ & _). cbn [ax_axes ax_expr]. split; auto. split; auto. split; auto.
  apply yok_tms. rewrite <- map_nth_slice by lia. apply yok_leaves; auto.
  apply Forall_forall. intros j Hj. apply in_seq in Hj. lia.
Qed.

End Vrep.
