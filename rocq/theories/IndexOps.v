(** Indexing primitives on arrays with named axes: gather, take, slice and pad,
    concatenation. *)
From Verif Require Import Base Scalar Tensor Types Sym Phi Den Typing NdOps NdFacts Yarr Axial AxialFacts AxialOps Codegen.

(** * List lemmas *)

Lemma mem_seq k p m : mem k (seq p m) = (p <=? k) && (k <? p + m).
Proof.
  destruct (mem k (seq p m)) eqn:E.
  - apply mem_In, in_seq in E. symmetry. apply andb_true_iff. split; [apply Nat.leb_le|apply Nat.ltb_lt]; lia.
  - apply mem_not_In in E. symmetry. apply andb_false_iff.
    destruct (p <=? k) eqn:E1; auto. right. apply Nat.leb_le in E1. apply Nat.ltb_ge.
    destruct (le_lt_dec (p + m) k); auto. exfalso. apply E. apply in_seq. lia.
Qed.

Lemma ins_at_tail v m u : forall q,
  ins_at (seq (q + length u) m) v q (length u + m) u = u ++ repeat v m.
Proof.
  induction u as [|x u IH]; intros q; simpl.
  - rewrite Nat.add_0_r. assert (G : forall m' q', q <= q' -> q' + m' = q + m ->
      ins_at (seq q m) v q' m' [] = repeat v m').
    { induction m' as [|m' IHm]; simpl; intros q' H1 H2; auto.
      rewrite mem_seq. assert ((q <=? q') && (q' <? q + m) = true) as ->.
      { apply andb_true_iff. split; [apply Nat.leb_le|apply Nat.ltb_lt]; lia. }
      f_equal. apply IHm; lia. }
    apply G; lia.
  - rewrite mem_seq. assert ((q + S (length u) <=? q) = false) as -> by (apply Nat.leb_gt; lia).
    simpl. f_equal. replace (q + S (length u)) with (S q + length u) by lia. apply IH.
Qed.

Lemma drop_at_tail m u v : length v = m -> forall q, drop_at (seq (q + length u) m) q (u ++ v) = u.
Proof.
  intros L. induction u as [|x u IH]; intros q; simpl.
  - rewrite Nat.add_0_r. assert (G : forall v' q', q <= q' -> q' + length v' = q + m ->
      drop_at (seq q m) q' v' = []).
    { induction v' as [|y v' IHv]; simpl; intros q' H1 H2; auto.
      rewrite mem_seq. assert ((q <=? q') && (q' <? q + m) = true) as ->.
      { apply andb_true_iff. split; [apply Nat.leb_le|apply Nat.ltb_lt]; lia. }
      apply IHv; lia. }
    apply G; lia.
  - rewrite mem_seq. assert ((q + S (length u) <=? q) = false) as -> by (apply Nat.leb_gt; lia).
    simpl. f_equal. replace (q + S (length u)) with (S q + length u) by lia. apply IH.
Qed.

Lemma drop_at_one u x v : forall q, drop_at [q + length u] q (u ++ x :: v) = u ++ v.
Proof.
  induction u as [|y u IH]; intros q; simpl.
  - rewrite Nat.add_0_r, Nat.eqb_refl. simpl. apply drop_at_none. intros k Hk. simpl.
    rewrite orb_false_r. apply Nat.eqb_neq. lia.
  - assert ((q =? q + S (length u)) = false) as -> by (apply Nat.eqb_neq; lia). simpl. f_equal.
    replace (q + S (length u)) with (S q + length u) by lia. apply IH.
Qed.

Lemma ins_at_one u w v : forall q, ins_at [q + length u] w q (length u + S (length v)) (u ++ v) = u ++ w :: v.
Proof.
  induction u as [|y u IH]; intros q; simpl.
  - rewrite Nat.add_0_r, Nat.eqb_refl. simpl. f_equal. apply ins_at_none. intros k Hk. simpl.
    rewrite orb_false_r. apply Nat.eqb_neq. lia.
  - assert ((q =? q + S (length u)) = false) as -> by (apply Nat.eqb_neq; lia). simpl. f_equal.
    replace (q + S (length u)) with (S q + length u) by lia. apply IH.
Qed.

Lemma zip_bdim_app a b a' b' l l' : zip_bdim a b = Ok l -> zip_bdim a' b' = Ok l' ->
  zip_bdim (a ++ a') (b ++ b') = Ok (l ++ l').
Proof.
  revert b l. induction a as [|x a IH]; destruct b as [|y b]; simpl; intros l H H'; inv_bind; auto.
  rewrite Hb. cbn. rewrite (IH _ _ Hb0 H'). reflexivity.
Qed.

Lemma zip_bdim_ones l : zip_bdim l (repeat 1 (length l)) = Ok l.
Proof.
  induction l as [|x l IH]; simpl; auto. rewrite IH. unfold bdim.
  destruct (x =? 1) eqn:E; [reflexivity|]. simpl. reflexivity.
Qed.

Lemma bzip_app sh sh' i i' : length i = length sh -> bzip (sh ++ sh') (i ++ i') = bzip sh i ++ bzip sh' i'.
Proof. revert i. induction sh; destruct i; simpl; intros; try lia; auto. rewrite IHsh by lia. auto. Qed.

Lemma bzip_same sh p : inb sh p -> bzip sh p = p.
Proof.
  intros H. unfold inb in H. induction H as [|k d p sh Hk H IH]; simpl; auto. rewrite IH. f_equal.
  destruct (d =? 1) eqn:E; auto. apply Nat.eqb_eq in E. lia.
Qed.

Lemma bzip_ones m p : length p = m -> bzip (repeat 1 m) p = repeat 0 m.
Proof. revert p. induction m; destruct p; simpl; intros; try lia; auto. rewrite IHm by lia. auto. Qed.

Lemma bidx_full sh i : length i = length sh -> bidx sh i = bzip sh i.
Proof. intros H. unfold bidx. rewrite H, Nat.sub_diag. reflexivity. Qed.

Lemma inb_repeat_0 m : inb (repeat 1 m) (repeat 0 m).
Proof. induction m; simpl; constructor; auto. Qed.

Lemma firstn_app_exact {A} (u v : list A) n : n = length u -> firstn n (u ++ v) = u.
Proof. intros ->. rewrite firstn_app, firstn_all, Nat.sub_diag. simpl. apply app_nil_r. Qed.
Lemma skipn_app_exact {A} (u v : list A) n : n = length u -> skipn n (u ++ v) = v.
Proof. intros ->. rewrite skipn_app, skipn_all, Nat.sub_diag. reflexivity. Qed.
Lemma skipn_S_app {A} (u v : list A) x n : n = length u -> skipn (S n) (u ++ x :: v) = v.
Proof. intros ->. induction u; simpl; auto. Qed.

(** * Primitives around one axis *)

Section Prim.
Context {FO : FloatOps}.

Lemma unsqueeze_tail u m a : arr_wf a -> ashape a = u ->
  exists b, nd_unsqueeze (seq (length u) m) a = Ok b /\ arr_wf b /\ akind b = akind a /\
    ashape b = u ++ repeat 1 m /\
    (forall i, inb u i -> get b (i ++ repeat 0 m) = get a i).
Proof.
  intros W S. destruct (unsqueeze_spec (seq (length u) m) a W) as (b & H1 & H2 & H3 & H4 & H5).
  { apply seq_NoDup. }
  { intros k Hk. apply in_seq in Hk. rewrite seq_length. unfold arank. rewrite S. lia. }
  exists b. rewrite seq_length in *. unfold arank in *. rewrite S in *. 
  assert (S' : ashape b = u ++ repeat 1 m) by (rewrite H4; apply (ins_at_tail 1 m u 0)).
  split; auto. split; auto. split; auto. split; auto.
  intros i Hi. pose proof (inb_length _ _ Hi) as L. rewrite H5.
  - rewrite <- L. pose proof (drop_at_tail m i (repeat 0 m) (repeat_length _ _) 0) as DT; simpl in DT; rewrite DT. reflexivity.
  - rewrite S'. apply inb_app; auto. split; auto. apply inb_repeat_0.
Qed.

Lemma squeeze_one u v a : arr_wf a -> ashape a = u ++ 1 :: v ->
  exists b, nd_squeeze [length u] a = Ok b /\ arr_wf b /\ akind b = akind a /\
    ashape b = u ++ v /\
    (forall i p, inb u i -> inb v p -> get b (i ++ p) = get a (i ++ 0 :: p)).
Proof.
  intros W S. unfold nd_squeeze.
  assert (G : nodupb [length u] && forallb (fun k => (k <? arank a) && (nth k (ashape a) 0 =? 1)) [length u] = true).
  { simpl. rewrite andb_true_r. apply andb_true_iff. unfold arank. rewrite S, app_length. simpl. split.
    - apply Nat.ltb_lt. lia.
    - rewrite app_nth2, Nat.sub_diag by lia. reflexivity. }
  rewrite G. cbn [bind guard]. eexists. split; [reflexivity|].
  split; [apply nd_tab_wf; auto|]. split; [reflexivity|]. 
  assert (S' : drop_at [length u] 0 (ashape a) = u ++ v) by (rewrite S; apply (drop_at_one u 1 v 0)).
  split; [exact S'|]. intros i p Hi Hp.
  rewrite get_tab by (rewrite S'; apply inb_app; [apply inb_length; auto|auto]).
  f_equal. unfold arank. rewrite S, app_length. simpl.
  apply inb_length in Hi as Li. apply inb_length in Hp as Lp. rewrite <- Li, <- Lp.
  apply (ins_at_one i 0 p 0).
Qed.

Lemma slice_starts_at u n v z : slice_starts (u ++ n :: v) (put_at (length u + S (length v)) (length u) z)
  = repeat 0 (length u) ++ slice_bound z n :: repeat 0 (length v).
Proof.
  unfold put_at. replace (length u + S (length v) - length u - 1) with (length v) by lia.
  induction u as [|x u IH]; simpl.
  - f_equal. induction v; simpl; congruence.
  - f_equal. exact IH.
Qed.

Lemma slice_stops_at u n v z : slice_stops (u ++ n :: v) (put_at (length u + S (length v)) (length u) z)
  = u ++ slice_bound z n :: v.
Proof.
  unfold put_at. replace (length u + S (length v) - length u - 1) with (length v) by lia.
  induction u as [|x u IH]; simpl.
  - f_equal. induction v; simpl; congruence.
  - f_equal. exact IH.
Qed.

Lemma zip_with_app f a a' b b' : length a = length b ->
  zip_with f (a ++ a') (b ++ b') = zip_with f a b ++ zip_with f a' b'.
Proof. revert b. induction a; destruct b; simpl; intros; try lia; auto. rewrite IHa by lia. auto. Qed.

Lemma zip_sub_0 u : zip_with Nat.sub u (repeat 0 (length u)) = u.
Proof. induction u; simpl; rewrite ?Nat.sub_0_r; congruence. Qed.
Lemma zip_add_0 u : zip_with Nat.add u (repeat 0 (length u)) = u.
Proof. induction u; simpl; rewrite ?Nat.add_0_r; congruence. Qed.

Lemma put_at_length {A} n p (x : A) : p < n -> length (put_at n p x) = n.
Proof. intros H. unfold put_at. rewrite app_length. simpl. rewrite !repeat_length. lia. Qed.

Lemma slice_one u n v a lo hi : arr_wf a -> ashape a = u ++ n :: v ->
  (0 <= lo <= hi)%Z -> (hi <= Z.of_nat n)%Z ->
  exists b, nd_slice (put_at (arank a) (length u) lo) (put_at (arank a) (length u) hi) a = Ok b /\
    arr_wf b /\ akind b = akind a /\ ashape b = u ++ Z.to_nat (hi - lo) :: v /\
    (forall i j p, inb u i -> j < Z.to_nat (hi - lo) -> inb v p ->
       get b (i ++ j :: p) = get a (i ++ (Z.to_nat lo + j) :: p)).
Proof.
  intros W S H1 H2. unfold nd_slice.
  assert (R : arank a = length u + Datatypes.S (length v)) by (unfold arank; rewrite S, app_length; auto).
  rewrite !put_at_length, Nat.eqb_refl by lia. cbn [andb bind guard]. eexists. split; [reflexivity|].
  split; [apply nd_tab_wf; auto|]. split; [reflexivity|].
  rewrite R, S, slice_starts_at, slice_stops_at.
  assert (B1 : slice_bound lo n = Z.to_nat lo).
  { unfold slice_bound. destruct (lo <? 0)%Z eqn:E; [apply Z.ltb_lt in E|]; lia. }
  assert (B2 : slice_bound hi n = Z.to_nat hi).
  { unfold slice_bound. destruct (hi <? 0)%Z eqn:E; [apply Z.ltb_lt in E|]; lia. }
  rewrite B1, B2.
  assert (S' : zip_with Nat.sub (u ++ Z.to_nat hi :: v) (repeat 0 (length u) ++ Z.to_nat lo :: repeat 0 (length v))
               = u ++ Z.to_nat (hi - lo) :: v).
  { rewrite zip_with_app by (rewrite repeat_length; auto). simpl. rewrite !zip_sub_0. f_equal. f_equal. lia. }
  split; [exact S'|]. intros i j p Hi Hj Hp.
  rewrite get_tab.
  - f_equal. apply inb_length in Hi as Li. apply inb_length in Hp as Lp.
    rewrite zip_with_app by (rewrite repeat_length; auto). simpl. rewrite <- Li, <- Lp, !zip_add_0.
    f_equal. f_equal. lia.
  - rewrite S'. apply inb_app; [apply inb_length; auto|]. split; auto. apply inb_cons. auto.
Qed.

Definition pads_at (m k : nat) (l r : Z) : list (Z * Z) :=
  repeat (0%Z, 0%Z) m ++ (l, r) :: repeat (0%Z, 0%Z) k.

Lemma edge_sh_zero u : edge_sh u (repeat (0%Z, 0%Z) (length u)) = u.
Proof. unfold edge_sh. induction u; simpl; f_equal; auto. lia. Qed.

Lemma edge_idx_zero u i : inb u i -> edge_idx u (repeat (0%Z, 0%Z) (length u)) i = i.
Proof.
  intros H. unfold inb in H. induction H as [|k n i u Hk H IH]; simpl; auto. rewrite IH. f_equal.
  rewrite Z.sub_0_r. apply clip_id. auto.
Qed.

Lemma edge_idx_app u p1 i v p2 j : length p1 = length u -> length i = length u ->
  edge_idx (u ++ v) (p1 ++ p2) (i ++ j) = edge_idx u p1 i ++ edge_idx v p2 j.
Proof.
  revert p1 i. induction u; destruct p1 as [|[]], i; simpl; intros; try lia; auto. rewrite IHu by lia. auto.
Qed.

Lemma pad_one u n v a l r : arr_wf a -> ashape a = u ++ n :: v -> 0 < n -> (0 <= l)%Z -> (0 <= r)%Z ->
  exists b, nd_edge_pad a (pads_at (length u) (length v) l r) = Ok b /\
    arr_wf b /\ akind b = akind a /\ ashape b = u ++ (n + Z.to_nat l + Z.to_nat r) :: v /\
    (forall i j p, inb u i -> j < n + Z.to_nat l + Z.to_nat r -> inb v p ->
       get b (i ++ j :: p) = get a (i ++ clip (Z.of_nat j - l) n :: p)).
Proof.
  intros W S Hn Hl Hr. unfold nd_edge_pad.
  assert (L : length (pads_at (length u) (length v) l r) = arank a).
  { unfold pads_at, arank. rewrite S, !app_length. simpl. rewrite !repeat_length. auto. }
  rewrite L, Nat.eqb_refl.
  assert (Z0 : forall m, forallb (fun p : Z * Z => (0 <=? fst p)%Z && (0 <=? snd p)%Z) (repeat (0%Z, 0%Z) m) = true)
    by (induction m; simpl; auto).
  assert (P : pads_ok (pads_at (length u) (length v) l r) = true).
  { unfold pads_ok, pads_at. rewrite forallb_app. cbn [forallb fst snd]. rewrite !Z0.
    apply Z.leb_le in Hl. apply Z.leb_le in Hr. rewrite Hl, Hr. auto. }
  rewrite P.
  assert (Z1 : forall w, forallb (fun p : nat * (Z * Z) => (0 <? fst p) || ((fst (snd p) =? 0)%Z && (snd (snd p) =? 0)%Z))
     (combine w (repeat (0%Z, 0%Z) (length w))) = true).
  { induction w; simpl; auto. rewrite orb_true_r. auto. }
  assert (CA : forall (w w' : list nat) (q q' : list (Z * Z)), length w = length q ->
     combine (w ++ w') (q ++ q') = combine w q ++ combine w' q').
  { induction w; destruct q; simpl; intros; try lia; auto. rewrite IHw by lia. auto. }
  assert (G : forallb (fun p : nat * (Z * Z) => (0 <? fst p) || ((fst (snd p) =? 0)%Z && (snd (snd p) =? 0)%Z))
     (combine (ashape a) (pads_at (length u) (length v) l r)) = true).
  { rewrite S. unfold pads_at. rewrite CA by (rewrite repeat_length; auto). rewrite forallb_app.
    cbn [combine forallb fst snd]. rewrite !Z1. apply Nat.ltb_lt in Hn. rewrite Hn. auto. }
  rewrite G. cbn [bind guard]. eexists. split; [reflexivity|].
  split; [apply nd_tab_wf; auto|]. split; [reflexivity|].
  assert (S' : edge_sh (ashape a) (pads_at (length u) (length v) l r) = u ++ (n + Z.to_nat l + Z.to_nat r) :: v).
  { rewrite S. unfold edge_sh, pads_at. rewrite CA, map_app by (rewrite repeat_length; auto).
    cbn [combine map fst snd]. f_equal; [apply edge_sh_zero|]. f_equal. apply edge_sh_zero. }
  split; [exact S'|]. intros i j p Hi Hj Hp. rewrite get_tab.
  - f_equal. rewrite S. unfold pads_at. rewrite edge_idx_app by (rewrite ?repeat_length; auto; apply inb_length; auto).
    cbn [edge_idx]. rewrite !edge_idx_zero by auto. auto.
  - rewrite S'. apply inb_app; [apply inb_length; auto|]. split; auto. apply inb_cons. auto.
Qed.

End Prim.

(** * On families *)

Section IndexOps.
Context {FO : FloatOps}.
Variable N : nat -> nat.
Variable I : list nat.

(** gather, with the squeezes and unsqueezes around it *)
Lemma gather_ok axes ax_t ax_i n rest k bt At bi z A' :
  NoDup axes -> incl axes I ->
  (forall x, In x axes -> mem x ax_t || mem x ax_i = true) ->
  0 < n ->
  frep N I (fun i => mem i ax_t) axes (n :: rest) k bt At ->
  frep N I (fun i => mem i ax_i) axes [] KInt bi (fun s => ascalar (SI (z s))) ->
  (forall s, wv N I s -> arr_wf (A' s) /\ akind (A' s) = k /\ ashape (A' s) = rest /\
     forall p, inb rest p -> get (A' s) p = get (At s) (clip (z s) n :: p)) ->
  exists bi' bg b, nd_unsqueeze (seq (length axes) (S (length rest))) bi = Ok bi' /\
    nd_gather (length axes) bt bi' = Ok bg /\ nd_squeeze [length axes] bg = Ok b /\
    akind bi' = KInt /\ length (ashape bi') = length (ashape bt) /\
    frep N I all_axes axes rest k b A'.
Proof.
  intros ND IN U Hn Ft Fi HA.
  pose proof (fr_shape _ _ _ _ _ _ _ _ Fi) as Si. rewrite app_nil_r in Si.
  pose proof (fr_shape _ _ _ _ _ _ _ _ Ft) as St.
  set (ui := map (fun i => if mem i ax_i then N i else 1) axes) in *.
  set (ut := map (fun i => if mem i ax_t then N i else 1) axes) in *.
  assert (Lui : length ui = length axes) by apply map_length.
  assert (Lut : length ut = length axes) by apply map_length.
  destruct (unsqueeze_tail ui (S (length rest)) bi (fr_wf _ _ _ _ _ _ _ _ Fi) Si) as (bi' & U1 & W1 & K1 & S1 & G1).
  rewrite Lui in U1. exists bi'.
  assert (Kbi : akind bi' = KInt) by (rewrite K1; apply Fi).
  assert (Z1 : zip_bdim (set_nth (length axes) 1 (ashape bt)) (ashape bi') = Ok (map N axes ++ 1 :: rest)).
  { rewrite St, S1. rewrite <- Lut at 1. rewrite <- (Nat.add_0_r (length ut)), set_nth_app_r.
    apply zip_bdim_app.
    - unfold ut, ui. apply zip_bdim_map. intros i Hi. specialize (U i Hi). unfold bdim.
      destruct (mem i ax_t), (mem i ax_i); simpl in U; try discriminate.
      + rewrite Nat.eqb_refl. auto.
      + destruct (N i =? 1) eqn:E; auto.
      + destruct (1 =? N i) eqn:E; auto. apply Nat.eqb_eq in E. congruence.
    - simpl. rewrite zip_bdim_ones. reflexivity. }
  assert (Hnt : nth (length axes) (ashape bt) 0 = n).
  { rewrite St, <- Lut, app_nth2, Nat.sub_diag by lia. reflexivity. }
  assert (Rt : arank bt = length axes + S (length rest)) by (unfold arank; rewrite St, app_length; simpl; lia).
  assert (Ri : arank bi' = length axes + S (length rest)).
  { unfold arank; rewrite S1, app_length, repeat_length; lia. }
  set (bg := tab (akind bt) (map N axes ++ 1 :: rest)
        (fun idx => get bt (set_nth (length axes) (clip (int_of (get bi' (bidx (ashape bi') idx))) n)
                             (bidx (ashape bt) idx)))).
  assert (GE : nd_gather (length axes) bt bi' = Ok bg).
  { unfold nd_gather. rewrite Rt, Ri, Nat.eqb_refl, Kbi, Hnt.
    assert ((length axes <? length axes + S (length rest)) = true) as -> by (apply Nat.ltb_lt; lia).
    assert ((0 <? n) = true) as -> by (apply Nat.ltb_lt; lia). cbn [bind guard kind_eqb orb].
    rewrite Z1. reflexivity. }
  exists bg.
  assert (Wg : arr_wf bg) by (apply nd_tab_wf; apply Ft).
  destruct (squeeze_one (map N axes) rest bg Wg eq_refl) as (b & Q1 & Q2 & Q3 & Q4 & Q5).
  rewrite map_length in Q1. exists b.
  split; [exact U1|]. split; [exact GE|]. split; [exact Q1|]. split; [exact Kbi|].
  split; [unfold arank in Rt, Ri; congruence|].
  constructor.
  - exact Q2.
  - rewrite Q3. simpl. apply Ft.
  - exact Q4.
  - intros s Hs. destruct (HA s Hs) as (A1 & A2 & A3 & _). auto.
  - intros s Hs Hlt p Hp. destruct (HA s Hs) as (_ & _ & _ & A4). rewrite A4 by auto.
    assert (Hlt' : forall i, In i axes -> s i < N i) by (intros i Hi; apply Hlt; auto).
    assert (Bs : inb (map N axes) (map s axes)) by (apply (inb_assign N all_axes axes s Hlt)).
    assert (M : map (fun i => if all_axes i then s i else 0) axes = map s axes) by reflexivity. rewrite M.
    rewrite Q5 by auto. unfold bg. rewrite get_tab.
    2:{ apply inb_app; [rewrite !map_length; auto|]. split; auto. apply inb_cons; auto. }
    pose proof (inb_length _ _ Hp) as Lp.
    assert (BI : bidx (ashape bi') (map s axes ++ 0 :: p)
                 = map (fun i => if mem i ax_i then s i else 0) axes ++ repeat 0 (S (length rest))).
    { rewrite bidx_full by (rewrite S1, !app_length, map_length, repeat_length; simpl; lia).
      rewrite S1, bzip_app by (rewrite map_length; lia). f_equal.
      - pose proof (bzip_assign N ax_i axes s [] [] inb_nil) as B. rewrite !app_nil_r in B. apply B. auto.
      - simpl. rewrite bzip_ones by auto. reflexivity. }
    rewrite BI, G1.
    2:{ apply inb_assign. auto. }
    assert (GI : get bi (map (fun i => if mem i ax_i then s i else 0) axes) = SI (z s)).
    { pose proof (fr_get _ _ _ _ _ _ _ _ Fi s Hs) as G. rewrite <- (app_nil_r (map _ axes)). rewrite G; auto; constructor. }
    rewrite GI. cbn [int_of].
    assert (BT : bidx (ashape bt) (map s axes ++ 0 :: p)
                 = map (fun i => if mem i ax_t then s i else 0) axes ++ 0 :: p).
    { rewrite bidx_full by (rewrite St, !app_length, map_length; simpl; lia). rewrite St.
      apply bzip_assign; auto. apply inb_cons. auto. }
    rewrite BT.
    assert (Lm : length axes = length (map (fun i => if mem i ax_t then s i else 0) axes) + 0) by (rewrite map_length; lia).
    rewrite Lm, set_nth_app_r. cbn [set_nth].
    apply (fr_get _ _ _ _ _ _ _ _ Ft s Hs); auto. apply inb_cons. split; auto. apply clip_lt; auto.
Qed.

(** take: the axis of the target is replaced by the axes of the item *)
Lemma take_ok ax_t ax_i n rest k bt At bi z A' :
  0 < n ->
  frep N I all_axes ax_t (n :: rest) k bt At ->
  frep N I all_axes ax_i [] KInt bi (fun s => ascalar (SI (z s))) ->
  (forall s, wv N I s -> arr_wf (A' s) /\ akind (A' s) = k /\ ashape (A' s) = rest /\
     forall p, inb rest p -> get (A' s) p = get (At s) (clip (z s) n :: p)) ->
  exists b, nd_take1 (length ax_t) bt bi = Ok b /\ frep N I all_axes (ax_t ++ ax_i) rest k b A'.
Proof.
  intros Hn Ft Fi HA.
  pose proof (fr_shape _ _ _ _ _ _ _ _ Fi) as Si. rewrite app_nil_r in Si.
  pose proof (fr_shape _ _ _ _ _ _ _ _ Ft) as St.
  assert (M : forall (f : nat -> nat) c l, map (fun i => if all_axes i then f i else c) l = map f l) by reflexivity.
  rewrite M in Si, St.
  assert (Hnt : nth (length ax_t) (ashape bt) 0 = n).
  { rewrite St, app_nth2; rewrite map_length; [rewrite Nat.sub_diag; reflexivity|lia]. }
  assert (Rt : arank bt = length ax_t + S (length rest)) by (unfold arank; rewrite St, app_length, map_length; simpl; lia).
  assert (Ri : arank bi = length ax_i) by (unfold arank; rewrite Si, map_length; auto).
  unfold nd_take1. rewrite Hnt, Ri, Rt, (fr_kind _ _ _ _ _ _ _ _ Fi).
  assert ((length ax_t <? length ax_t + S (length rest)) = true) as -> by (apply Nat.ltb_lt; lia).
  assert ((0 <? n) = true) as -> by (apply Nat.ltb_lt; lia). cbn [bind guard kind_eqb orb].
  eexists. split; [reflexivity|].
  assert (SH : firstn (length ax_t) (ashape bt) ++ ashape bi ++ skipn (S (length ax_t)) (ashape bt)
               = map N (ax_t ++ ax_i) ++ rest).
  { rewrite St, Si. rewrite firstn_app_exact by (rewrite map_length; auto).
    rewrite skipn_S_app by (rewrite map_length; auto). rewrite map_app, <- app_assoc. reflexivity. }
  constructor.
  - apply nd_tab_wf. apply Ft.
  - simpl. apply Ft.
  - exact SH.
  - intros s Hs. destruct (HA s Hs) as (A1 & A2 & A3 & _). auto.
  - intros s Hs Hlt p Hp. destruct (HA s Hs) as (_ & _ & _ & A4). rewrite A4 by auto. rewrite M.
    rewrite get_tab.
    2:{ rewrite SH. apply inb_app; [rewrite !map_length; auto|]. split; auto.
        apply (inb_assign N all_axes (ax_t ++ ax_i) s Hlt). }
    rewrite map_app, <- app_assoc.
    rewrite firstn_app_exact by (rewrite map_length; auto).
    rewrite skipn_app_exact by (rewrite map_length; auto).
    rewrite firstn_app_exact by (rewrite map_length; auto).
    rewrite app_assoc, skipn_app_exact by (rewrite app_length, !map_length; auto).
    assert (GI : get bi (map s ax_i) = SI (z s)).
    { pose proof (fr_get _ _ _ _ _ _ _ _ Fi s Hs) as G. rewrite M in G. rewrite <- (app_nil_r (map s ax_i)).
      rewrite G; auto; [|constructor]. intros i Hi _. apply Hlt; auto. apply in_or_app; auto. }
    rewrite GI. cbn [int_of].
    apply (fr_get _ _ _ _ _ _ _ _ Ft s Hs).
    + intros i Hi _. apply Hlt; auto. apply in_or_app; auto.
    + apply inb_cons. split; auto. apply clip_lt; auto.
Qed.

(** The arithmetic of [pad_slice_get]. *)
Lemma pad_slice_arith d lo hi size n : (1 <= size)%Z -> (1 <= n)%Z -> (0 <= lo)%Z -> (0 <= hi <= n - 1)%Z ->
  let start := Z.min (Z.max d lo) hi in
  let stop := (Z.min (Z.max (d + size - 1) lo) hi + 1)%Z in
  let left := Z.min (Z.max (lo - d) 0) (size - 1) in
  let right := (size - (stop - start) - left)%Z in
  (0 <= start < stop)%Z /\ (stop <= n)%Z /\ (0 <= left)%Z /\ (0 <= right)%Z /\
  (stop - start + left + right = size)%Z /\
  (forall j, 0 <= j < size ->
     start + Z.min (Z.max (j - left) 0) (stop - start - 1) = Z.min (Z.max (j + d) lo) hi)%Z.
Proof. intros. subst start stop left right. repeat split; try lia. Qed.

(** slice then pad: the target's first positional axis becomes the axis of the
    index *)
Lemma slice_pad_ok ax_t i d lo hi n rest k bt At A' :
  1 <= N i -> 1 <= n -> (0 <= lo)%Z -> (0 <= hi <= Z.of_nat n - 1)%Z ->
  frep N I all_axes ax_t (n :: rest) k bt At ->
  (forall s, wv N I s -> arr_wf (A' s) /\ akind (A' s) = k /\ ashape (A' s) = rest /\
     forall p, inb rest p ->
       get (A' s) p = get (At s) (clip (Z.min (Z.max (Z.of_nat (s i) + d) lo) hi) n :: p)) ->
  let size := Z.of_nat (N i) in
  let start := Z.min (Z.max d lo) hi in
  let stop := (Z.min (Z.max (d + size - 1) lo) hi + 1)%Z in
  let left := Z.min (Z.max (lo - d) 0) (size - 1) in
  let right := (size - (stop - start) - left)%Z in
  exists b1 b2, nd_slice (put_at (arank bt) (length ax_t) start) (put_at (arank bt) (length ax_t) stop) bt = Ok b1 /\
    arr_wf b1 /\ akind b1 = akind bt /\ ashape b1 = map N ax_t ++ Z.to_nat (stop - start) :: rest /\
    1 <= Z.to_nat (stop - start) /\ (0 <= left)%Z /\ (0 <= right)%Z /\
    nd_edge_pad b1 (pads_at (length ax_t) (length rest) left right) = Ok b2 /\
    frep N I all_axes (ax_t ++ [i]) rest k b2 A'.
Proof.
  intros HN Hn Hlo Hhi Ft HA size start stop left right.
  destruct (pad_slice_arith d lo hi size (Z.of_nat n)) as (P1 & P2 & P3 & P4 & P5 & P6); unfold size; try lia.
  fold size in P1, P2, P3, P4, P5, P6. cbv zeta in P1, P2, P3, P4, P5, P6.
  fold start in P1, P4, P5, P6. fold left in P3, P4, P5, P6. fold stop in P1, P2, P4, P5, P6. fold right in P4, P5.
  pose proof (fr_shape _ _ _ _ _ _ _ _ Ft) as St.
  assert (M : forall (f : nat -> nat) c l, map (fun i => if all_axes i then f i else c) l = map f l) by reflexivity.
  rewrite M in St.
  destruct (slice_one (map N ax_t) n rest bt start stop (fr_wf _ _ _ _ _ _ _ _ Ft) St) as (b1 & S1 & S2 & S3 & S4 & S5); try lia.
  rewrite map_length in S1.
  destruct (pad_one (map N ax_t) (Z.to_nat (stop - start)) rest b1 left right S2 S4) as (b2 & Q1 & Q2 & Q3 & Q4 & Q5); try lia.
  rewrite map_length in Q1.
  exists b1, b2. split; auto. split; auto. split; auto. split; auto. split; [lia|]. split; auto. split; auto. split; auto.
  assert (SZ : Z.to_nat (stop - start) + Z.to_nat left + Z.to_nat right = N i) by (unfold size in P5; lia).
  rewrite SZ in Q4, Q5.
  constructor.
  - exact Q2.
  - rewrite Q3, S3. apply Ft.
  - rewrite Q4, M, map_app, <- app_assoc. reflexivity.
  - intros s Hs. destruct (HA s Hs) as (A1 & A2 & A3 & _). auto.
  - intros s Hs Hlt p Hp. destruct (HA s Hs) as (_ & _ & _ & A4). rewrite A4 by auto. rewrite M.
    rewrite map_app, <- app_assoc. cbn [map app].
    assert (Hi : s i < N i) by (apply Hlt; auto; apply in_or_app; right; left; auto).
    assert (Hlt' : forall x, In x ax_t -> all_axes x = true -> s x < N x).
    { intros x Hx _. apply Hlt; auto. apply in_or_app; auto. }
    assert (Bs : inb (map N ax_t) (map s ax_t)) by (apply (inb_assign N all_axes ax_t s Hlt')).
    rewrite Q5 by auto. rewrite S5 by (auto; apply clip_lt; lia).
    rewrite <- (fr_get _ _ _ _ _ _ _ _ Ft s Hs Hlt').
    2:{ apply inb_cons. split; [apply clip_lt; lia|auto]. }
    rewrite M. f_equal. f_equal. f_equal. unfold clip. rewrite Z2Nat.id by lia.
    rewrite <- (P6 (Z.of_nat (s i))) by (unfold size; lia).
    clearbody start stop left right. clear - P1 P2 Hn.
    generalize (Z.of_nat (s i) - left)%Z. intros w. lia.
Qed.

(** concatenation along the first positional axis *)
Lemma concat_ok ax n m rest k b1 b2 A1 A2 A' :
  frep N I all_axes ax (n :: rest) k b1 A1 -> frep N I all_axes ax (m :: rest) k b2 A2 ->
  (forall s, wv N I s -> arr_wf (A' s) /\ akind (A' s) = k /\ ashape (A' s) = n + m :: rest /\
     forall j p, j < n + m -> inb rest p ->
       get (A' s) (j :: p) = if j <? n then get (A1 s) (j :: p) else get (A2 s) (j - n :: p)) ->
  exists b, nd_concat (length ax) [b1; b2] = Ok b /\ frep N I all_axes ax (n + m :: rest) k b A'.
Proof.
  intros F1 F2 HA.
  pose proof (fr_shape _ _ _ _ _ _ _ _ F1) as S1. pose proof (fr_shape _ _ _ _ _ _ _ _ F2) as S2.
  assert (M : forall (f : nat -> nat) c l, map (fun i => if all_axes i then f i else c) l = map f l) by reflexivity.
  rewrite M in S1, S2.
  assert (SN : forall (u v : list nat) x y, length u = length ax -> set_nth (length ax) x (u ++ y :: v) = u ++ x :: v).
  { intros u v x y L. rewrite <- L, <- (Nat.add_0_r (length u)), set_nth_app_r. reflexivity. }
  assert (NN : forall (u v : list nat) y, length u = length ax -> nth (length ax) (u ++ y :: v) 0 = y).
  { intros u v y L. rewrite <- L, app_nth2, Nat.sub_diag by lia. reflexivity. }
  unfold nd_concat. cbn [nd_concat_from]. unfold nd_concat2.
  assert ((length ax <? arank b1) = true) as ->.
  { apply Nat.ltb_lt. unfold arank. rewrite S1, app_length, map_length. simpl. lia. }
  rewrite S1, S2, !SN by apply map_length.
  assert (list_nat_eqb (map N ax ++ 0 :: rest) (map N ax ++ 0 :: rest) = true) as -> by (apply list_nat_eqb_eq; auto).
  rewrite (fr_kind _ _ _ _ _ _ _ _ F1), (fr_kind _ _ _ _ _ _ _ _ F2), kind_eqb_refl.
  cbn [bind guard]. eexists. split; [reflexivity|]. rewrite !NN by apply map_length.
  constructor.
  - apply tab_wf. intros idx _. cbv zeta. destruct (_ <? _).
    + rewrite <- (fr_kind _ _ _ _ _ _ _ _ F1). apply get_kind_any. apply F1.
    + rewrite <- (fr_kind _ _ _ _ _ _ _ _ F2). apply get_kind_any. apply F2.
  - reflexivity.
  - reflexivity.
  - intros s Hs. destruct (HA s Hs) as (H1 & H2 & H3 & _). auto.
  - intros s Hs Hlt p Hp. destruct (HA s Hs) as (_ & _ & _ & A4). destruct p as [|j p]; [inversion Hp|].
    apply inb_cons in Hp as [Hj Hp]. rewrite A4 by auto. rewrite M.
    assert (Bs : inb (map N ax) (map s ax)) by (apply (inb_assign N all_axes ax s Hlt)).
    rewrite get_tab.
    2:{ apply inb_app; [rewrite !map_length; auto|]. split; auto. apply inb_cons; auto. }
    cbv zeta. rewrite NN, SN by apply map_length. destruct (j <? n) eqn:E.
    + apply Nat.ltb_lt in E. apply (fr_get _ _ _ _ _ _ _ _ F1 s Hs); auto. apply inb_cons; auto.
    + apply Nat.ltb_ge in E. apply (fr_get _ _ _ _ _ _ _ _ F2 s Hs); auto. apply inb_cons; split; auto. lia.
Qed.

(** dimension and range *)
Lemma range_ok i : In i I -> frep N I all_axes [i] [] KInt (nd_range (Z.of_nat (N i))) (fun s => ascalar (SI (Z.of_nat (s i)))).
Proof.
  intros Hi. constructor.
  - apply tab_wf. auto.
  - reflexivity.
  - simpl. rewrite Nat2Z.id. reflexivity.
  - intros s Hs. split; [apply ascalar_wf|]. auto.
  - intros s Hs Hlt p Hp. inversion Hp; subst. unfold nd_range. rewrite get_tab; [reflexivity|].
    rewrite Nat2Z.id. constructor; [|constructor]. apply Hlt; [left|]; auto.
Qed.

End IndexOps.
