(** Array code computes arrays of the rank and element kind its type
    announces. *)
From Verif Require Import Base Scalar Tensor Types TypesFacts Sym Phi Den NdOps NdFacts Yarr YOps FastPad DenWf.

Section YTyping.
Context {FO : FloatOps} {EX : Externs} {PO : PadOps}.

(** The rank and element kind of a run-time value. *)
Definition pat_of (a : arr) : pat := (arank a, akind a).
Definition vpty (v : yval) : pty := match v with YA a => [pat_of a] | YT l => map pat_of l end.

(** Declared types of the variables in scope. *)
Definition ytenv : Type := nat -> option pty.
Definition tset (G : ytenv) (x : nat) (p : pty) : ytenv := fun y => if y =? x then Some p else G y.
Definition opty_is (o : option pty) (p : pty) : bool := match o with Some q => pty_eqb q p | None => false end.
Definition oforall {A} (f : A -> bool) (o : option A) : bool := match o with Some a => f a | None => true end.
Definition typed_as (r : res pty) (k : pty -> bool) : bool := match r with Ok p => k p | Err _ => false end.

(** Every variable occurrence is annotated with the type of its binder; [pk]
    says at which kinds an array may be padded.  The [type] properties do not
    check any of this: Let.type (yarr.py:148-150) ignores the type of the bound
    variable, Fold.type (612-618) those of counter and accumulator, and
    Reduce.type (649-653) compares neither the types of [x] and [y] nor that of
    [xy] with that of the vectors. *)
Variable pk : kind -> bool.
Fixpoint ydecl (G : ytenv) (e : yarr) {struct e} : bool :=
  match e with
  | YConst _ => true
  | YVar x t => opty_is (G x) t
  | YLet x b body => ydecl G b && typed_as (ytyp b) (fun p => ydecl (tset G x p) body)
  | YDim _ t | YRange t | YTranspose _ t | YSqueeze _ t | YUnsqueeze _ t | YReduceAxis _ _ t | YCast _ t
  | YUn _ t | YUntuple _ _ t => ydecl G t
  | YConcat ops _ | YTuple ops | YEinsum _ ops | YExt _ _ ops => forallb (ydecl G) ops
  | YGather _ a b | YRepeat _ a b | YBin _ a b _ => ydecl G a && ydecl G b
  | YTake t items => ydecl G t && forallb (oforall (ydecl G)) items
  | YSlice t l r => ydecl G t && forallb (oforall (ydecl G)) l && forallb (oforall (ydecl G)) r
  | YPad t l r =>
      ydecl G t && forallb (oforall (ydecl G)) l && forallb (oforall (ydecl G)) r &&
      typed_as (ytyp t) (fun p => forallb (fun s => pk (snd s)) p)
  | YWhere a b c => ydecl G a && ydecl G b && ydecl G c
  | YFold c size acc init body =>
      ydecl G size && ydecl G init &&
      typed_as (ytyp init) (fun p => ydecl (tset (tset G acc p) c [(0, KInt)]) body)
  | YReduce init x y xy vecs ax =>
      ydecl G init && ydecl G vecs &&
      typed_as (ytyp vecs) (fun r =>
        typed_as (ytyp xy) (pty_eqb r) && ydecl (tset (tset G x r) y r) xy)
  end.

(** What is asked of the padding routine and of the external functions. *)
Definition pad_typed : Prop := forall a p b,
  pk (akind a) = true -> length p = arank a -> pad_call a p = Ok b -> pat_of b = pat_of a.
Fixpoint ext_declared (e : yarr) : Prop :=
  let fix all (l : list yarr) : Prop := match l with [] => True | x :: l => ext_declared x /\ all l end in
  let fix oalls (l : list (option yarr)) : Prop :=
    match l with
    | [] => True
    | o :: l => match o with Some x => ext_declared x | None => True end /\ oalls l
    end in
  match e with
  | YConst _ | YVar _ _ => True
  | YDim _ t | YRange t | YTranspose _ t | YSqueeze _ t | YUnsqueeze _ t | YReduceAxis _ _ t | YCast _ t
  | YUn _ t | YUntuple _ _ t => ext_declared t
  | YConcat ops _ | YTuple ops | YEinsum _ ops => all ops
  | YLet _ a b | YGather _ a b | YRepeat _ a b | YBin _ a b _ => ext_declared a /\ ext_declared b
  | YTake t items => ext_declared t /\ oalls items
  | YSlice t l r | YPad t l r => ext_declared t /\ oalls l /\ oalls r
  | YWhere a b c | YFold _ a _ b c | YReduce a _ _ b c _ => ext_declared a /\ ext_declared b /\ ext_declared c
  | YExt t f ops => all ops /\ forall l a, ext_call f l = Ok a -> t = [pat_of a]
  end.

Definition yenv_typed (G : ytenv) (R : yenv) : Prop :=
  forall x p v, G x = Some p -> R (SV x) = Some v -> vpty v = p.

(** * Equality tests *)

Lemma pat_eqb_eq a b : pat_eqb a b = true -> a = b.
Proof.
  destruct a, b. unfold pat_eqb. simpl. intros H. apply andb_prop in H as [H1 H2].
  apply Nat.eqb_eq in H1. apply kind_eqb_eq in H2. congruence.
Qed.
Lemma pty_eqb_eq a : forall b, pty_eqb a b = true -> a = b.
Proof.
  induction a as [|x a IH]; intros [|y b]; simpl; try discriminate; auto.
  intros H. apply andb_prop in H as [H1 H2]. apply pat_eqb_eq in H1. apply IH in H2. congruence.
Qed.
Lemma typed_as_ok r k : typed_as r k = true -> exists p, r = Ok p /\ k p = true.
Proof. destruct r; simpl; intros H; [eauto|discriminate]. Qed.

Lemma yenv_typed_upd G R x p v : yenv_typed G R -> vpty v = p -> yenv_typed (tset G x p) (upd R (SV x) v).
Proof.
  intros T V y q w. unfold tset. destruct (Nat.eqb_spec y x) as [->|N].
  - intros E. injection E as <-. rewrite upd_eq. intros E. injection E as <-. auto.
  - rewrite upd_neq by congruence. apply T.
Qed.

Lemma single_ok p s : single p = Ok s -> p = [s].
Proof. destruct p as [|a [|]]; simpl; intros H; try discriminate. injection H as <-. auto. Qed.
Lemma ya_vpty v a p s : vpty v = p -> single p = Ok s -> ya v = Ok a -> pat_of a = s.
Proof.
  intros V S H. apply single_ok in S. subst p. destruct v; simpl in *; [|discriminate].
  injection H as <-. injection S as E. exact E.
Qed.

(** * Primitives *)

Lemma pat_tab k sh f : pat_of (tab k sh f) = (length sh, k).
Proof. reflexivity. Qed.

Lemma nd_transpose_pat pi a b : nd_transpose pi a = Ok b -> pat_of b = (arank a, akind a).
Proof.
  unfold nd_transpose. intros H. inv_bind. rewrite pat_tab, map_length.
  unfold is_perm in Hb. apply andb_prop in Hb as [L _]. apply Nat.eqb_eq in L. congruence.
Qed.
Lemma nd_unsqueeze_pat axes a b : nd_unsqueeze axes a = Ok b -> pat_of b = (arank a + length axes, akind a).
Proof. unfold nd_unsqueeze. intros H. inv_bind. rewrite pat_tab, ins_at_length. reflexivity. Qed.

Lemma drop_count l : forall axes p, nodupb axes = true -> Forall (fun k => p <= k < p + length l) axes ->
  length (drop_at axes p l) + length axes = length l.
Proof.
  induction l as [|x l IH]; intros axes p N F; simpl.
  - destruct axes as [|k axes]; auto. inversion F; subst. simpl in *. lia.
  - destruct (mem p axes) eqn:M.
    + apply mem_In in M. destruct (in_split _ _ M) as (u & v & ->).
      rewrite nodupb_NoDup in N.
      assert (N' := NoDup_remove_1 _ _ _ N). assert (O := NoDup_remove_2 _ _ _ N).
      rewrite (drop_at_ext (u ++ p :: v) (u ++ v)).
      * rewrite app_length. simpl. rewrite <- (IH (u ++ v) (S p)).
        -- rewrite app_length. lia.
        -- apply nodupb_NoDup. auto.
        -- rewrite Forall_forall in *. intros k Hk. assert (k <> p) by (intros ->; auto).
           specialize (F k). simpl in F. assert (In k (u ++ p :: v)); [|specialize (F H0); lia].
           apply in_app_iff in Hk. apply in_app_iff. simpl. tauto.
      * intros q Hq. apply Bool.eq_iff_eq_true. rewrite !mem_In, !in_app_iff. simpl.
        split; [intros [|[|]]; auto; lia|tauto].
    + simpl. rewrite <- (IH axes (S p)); auto. rewrite Forall_forall in *. intros k Hk. specialize (F k Hk).
      simpl in F. assert (k <> p). { intros ->. apply mem_In in Hk. congruence. } lia.
Qed.
Lemma nd_squeeze_pat axes a b : nd_squeeze axes a = Ok b ->
  length axes <= arank a /\ pat_of b = (arank a - length axes, akind a).
Proof.
  unfold nd_squeeze. intros H. inv_bind. rewrite pat_tab. apply andb_prop in Hb as [N F].
  assert (L : length (drop_at axes 0 (ashape a)) + length axes = length (ashape a)).
  { apply drop_count; auto. rewrite forallb_forall in F. apply Forall_forall. intros k Hk.
    apply F in Hk. apply andb_prop in Hk as [Hk _]. apply Nat.ltb_lt in Hk. unfold arank in Hk. lia. }
  unfold arank. split; [lia|]. f_equal. lia.
Qed.
Lemma nd_repeat_pat ax z a b : nd_repeat ax z a = Ok b -> pat_of b = pat_of a.
Proof. unfold nd_repeat. intros H. inv_bind. rewrite pat_tab, set_nth_length. reflexivity. Qed.
Lemma nd_pick_pat ax l a b : nd_pick ax l a = Ok b -> pat_of b = pat_of a.
Proof. unfold nd_pick. intros H. inv_bind. rewrite pat_tab, set_nth_length. reflexivity. Qed.
Lemma zip_with_len f a : forall b, length a = length b -> length (zip_with f a b) = length a.
Proof. induction a; intros [|y b]; simpl; intros H; try discriminate; auto. Qed.
Lemma slice_starts_len sh : forall l, length l = length sh -> length (slice_starts sh l) = length sh.
Proof. induction sh; intros [|y b]; simpl; intros H; try discriminate; auto. Qed.
Lemma slice_stops_len sh : forall l, length l = length sh -> length (slice_stops sh l) = length sh.
Proof. induction sh; intros [|y b]; simpl; intros H; try discriminate; auto. Qed.
Lemma nd_slice_pat l r a b : nd_slice l r a = Ok b -> pat_of b = pat_of a.
Proof.
  unfold nd_slice. intros H. inv_bind. rewrite pat_tab. apply andb_prop in Hb as [L1 L2].
  apply Nat.eqb_eq in L1, L2. unfold arank in *.
  rewrite zip_with_len; rewrite slice_stops_len; auto. rewrite slice_starts_len; auto.
Qed.
Lemma nd_gather_pat ax a i b : nd_gather ax a i = Ok b -> pat_of b = pat_of a.
Proof.
  unfold nd_gather. intros H. apply bind_ok in H as (? & _ & H). apply bind_ok in H as (? & L & H).
  do 2 (apply bind_ok in H as (? & _ & H)). apply bind_ok in H as (sh & Q & H).
  injection H as <-. rewrite pat_tab. apply zip_bdim_length in Q. apply guard_ok in L. apply Nat.eqb_eq in L.
  unfold pat_of, arank in *. f_equal. congruence.
Qed.
Lemma nd_take1_pat ax a i b : nd_take1 ax a i = Ok b ->
  pat_of b = (arank a + arank i - 1, akind a) /\ 0 < arank a.
Proof.
  unfold nd_take1. intros H. apply bind_ok in H as (? & Hb & H). do 2 (apply bind_ok in H as (? & _ & H)).
  injection H as <-. apply guard_ok in Hb. rewrite pat_tab. apply Nat.ltb_lt in Hb. unfold arank in *.
  pose proof (skipn_length (S ax) (ashape a)) as Q. cbn [skipn] in *.
  rewrite !app_length, firstn_length, Q. split; [f_equal; lia|lia].
Qed.
Lemma nd_edge_pad_pat a p b : nd_edge_pad a p = Ok b -> pat_of b = pat_of a.
Proof.
  unfold nd_edge_pad. intros H. inv_bind. rewrite pat_tab. apply Nat.eqb_eq in Hb.
  unfold edge_sh, pat_of, arank in *. rewrite map_length, combine_length, Hb, Nat.min_id. reflexivity.
Qed.
Lemma nd_dim_pat ax a b : nd_dim ax a = Ok b -> pat_of b = (0, KInt).
Proof. unfold nd_dim. intros H. inv_bind. reflexivity. Qed.
Lemma nd_concat2_pat ax a b c : nd_concat2 ax a b = Ok c -> pat_of c = pat_of a.
Proof. unfold nd_concat2. intros H. inv_bind. rewrite pat_tab, set_nth_length. reflexivity. Qed.
Lemma nd_concat_from_pat ax l : forall a c, nd_concat_from ax a l = Ok c -> pat_of c = pat_of a.
Proof.
  induction l as [|b l IH]; simpl; intros a c H; [injection H as <-; auto|].
  apply bind_ok in H as (d & Hd & H). rewrite (IH _ _ H). apply (nd_concat2_pat _ _ _ _ Hd).
Qed.
Lemma nd_reduce_pat r ax a b : nd_reduce r ax a = Ok b -> pat_of b = (arank a - 1, akind a).
Proof.
  unfold nd_reduce. intros H. apply bind_ok in H as (u & Hu & H). apply bind_ok in H as (k & Hk & H).
  apply bind_ok in H as (u' & Hu' & H). injection H as <-. rewrite pat_tab.
  assert (k = akind a).
  { destruct (kind_bin _ _ _) eqn:K; [|discriminate]. injection Hk as ->.
    destruct r, (akind a); simpl in K; congruence. }
  subst k. apply guard_ok in Hu. apply Nat.ltb_lt in Hu. unfold del_nth, arank in *.
  pose proof (skipn_length (S ax) (ashape a)) as Q. cbn [skipn] in *.
  rewrite app_length, firstn_length, Q. f_equal. lia.
Qed.
Lemma nd_cast_pat k a b : nd_cast k a = Ok b -> pat_of b = (arank a, k).
Proof.
  unfold nd_cast. intros H. destruct k.
  1,2: destruct (kind_eqb _ _) eqn:K; [|discriminate]; injection H as <-; apply kind_eqb_eq in K;
    unfold pat_of; congruence.
  injection H as <-. reflexivity.
Qed.
Lemma nd_einsum_pat s l b : nd_einsum s l = Ok b -> pat_of b = (length (snd s), KFloat).
Proof. unfold nd_einsum. intros H. inv_bind. rewrite pat_tab, map_length. reflexivity. Qed.

Lemma nd_ew_pat kf sf ops b : nd_ew kf sf ops = Ok b ->
  exists k, kf (map akind ops) = Some k /\ pat_of b = (list_max (map arank ops), k).
Proof.
  intros H. apply nd_ew_type in H as [L K]. exists (akind b). split; auto. unfold pat_of, arank. rewrite L. reflexivity.
Qed.

(** * Reductions and the main theorem *)

Lemma mapM_pat (f : arr -> res arr) (g : pat -> pat) l l' :
  (forall a b, f a = Ok b -> pat_of b = g (pat_of a)) -> mapM f l = Ok l' -> map pat_of l' = map g (map pat_of l).
Proof.
  intros Hf. revert l'. induction l as [|a l IH]; simpl; intros l' H; [injection H as <-; auto|].
  apply bind_ok in H as (b & Hb & H). apply bind_ok in H as (l'' & Hl & H). injection H as <-. simpl.
  f_equal; auto.
Qed.
Lemma wrap_pat sg v l : wrap_vals sg v = Ok l -> vpty v = map pat_of l.
Proof. destruct sg, v; simpl; intros H; try discriminate; injection H as <-; auto. Qed.
Lemma unwrap_pat sg l v : unwrap_vals sg l = Ok v -> vpty v = map pat_of l.
Proof.
  destruct sg; simpl; intros H; [destruct l as [|a [|]]; try discriminate|]; injection H as <-; auto.
Qed.
Lemma tree_loop_pat g ax r fuel :
  (forall p q w, map pat_of p = r -> map pat_of q = r -> g p q = Ok w -> map pat_of w = r) ->
  forall n vals acc w, map pat_of vals = r -> map pat_of acc = r ->
  tree_loop g ax fuel n vals acc = Ok w -> map pat_of w = r.
Proof.
  intros Hg. induction fuel as [|fuel IH]; intros n vals acc w Wv Wa H; [discriminate|]. simpl in H.
  assert (P : forall f l, mapM (pick ax f) vals = Ok l -> map pat_of l = r).
  { intros f l Hl. rewrite <- Wv. rewrite <- (map_id (map pat_of vals)).
    apply (mapM_pat _ (fun p => p) _ _ (fun a b E => nd_pick_pat _ _ a b E) Hl). }
  destruct (1 <? n).
  - apply bind_ok in H as (ac & Hac & H). apply bind_ok in H as (p & Hp & H).
    apply bind_ok in H as (q & Hq & H). apply bind_ok in H as (vs & Hvs & H).
    apply IH in H; auto.
    + apply (Hg p q); eauto.
    + destruct (Nat.odd n); [|injection Hac as <-; auto].
      apply bind_ok in Hac as (l & Hl & Hac). apply (Hg l acc); eauto.
  - destruct (n =? 1); [|injection H as <-; auto].
    apply bind_ok in H as (l & Hl & H). apply (Hg l acc); eauto.
Qed.
Lemma rank_down_up p q : rank_down 1 q = Ok p -> rank_up 1 p = q.
Proof.
  unfold rank_down. revert p. induction q as [|[k kd] q IH]; cbn [mapM bind]; intros p H; [injection H as <-; auto|].
  apply bind_ok in H as (b & Hb & H). apply bind_ok in H as (l & Hl & H). injection H as <-.
  apply bind_ok in Hb as (u & Hu & Hb). injection Hb as <-. apply guard_ok in Hu. cbn [fst snd rank_up map] in *.
  specialize (IH _ Hl). unfold rank_up in IH. rewrite IH. apply Nat.leb_le in Hu. replace (k - 1 + 1) with k by lia. reflexivity.
Qed.
Lemma reduce_call_pat run ax acc vals v r p :
  (forall a b w, vpty a = r -> vpty b = r -> run a b = Ok w -> vpty w = r) ->
  rank_down 1 r = Ok p -> vpty acc = p -> vpty vals = r -> reduce_call run ax acc vals = Ok v -> vpty v = p.
Proof.
  intros Hr D Wa Wv H. unfold reduce_call in H. set (sg := match vals with YA _ => true | _ => false end) in *.
  apply bind_ok in H as (vs & Hvs & H). apply bind_ok in H as (ac & Hac & H).
  apply bind_ok in H as (ns & Hns & H). destruct ns as [|n ns]; [discriminate|].
  apply bind_ok in H as (u & _ & H). apply bind_ok in H as (ac1 & H1 & H).
  apply bind_ok in H as (ac2 & H2 & H). apply bind_ok in H as (ac3 & H3 & H).
  apply wrap_pat in Hvs, Hac.
  apply (mapM_pat _ (fun s => (fst s + 1, snd s)) _ _ (fun a b E => nd_unsqueeze_pat [ax] a b E)) in H1.
  rewrite <- Hac, Wa in H1. apply rank_down_up in D as U. assert (U1 : map pat_of ac1 = r) by (rewrite H1; exact U).
  apply tree_loop_pat with (r := r) in H2; [| |congruence|exact U1].
  - apply (mapM_pat _ (fun s => (fst s - 1, snd s)) _ _ (fun a b E => proj2 (nd_squeeze_pat [ax] a b E))) in H3.
    rewrite H2 in H3. apply unwrap_pat in H. rewrite H, H3, <- U. unfold rank_up. rewrite map_map.
    rewrite <- (map_id p) at 2. apply map_ext. intros [k kd]. simpl. f_equal. lia.
  - intros l q w Wp Wq E. apply bind_ok in E as (x & Hx & E). apply bind_ok in E as (y & Hy & E).
    apply bind_ok in E as (z & Hw & E). apply wrap_pat in E. rewrite <- E.
    apply unwrap_pat in Hx, Hy. apply (Hr x y); congruence.
Qed.

Definition item_typed (o : option arr) (q : option pat) : Prop :=
  match o, q with Some a, Some s => pat_of a = s | None, None => True | _, _ => False end.
Lemma the_item_none l : forall p (qs : list (option pat)), the_item p l = Some None -> Forall2 item_typed l qs ->
  list_max (map (fun o => match o with Some q => fst q | None => 0 end) qs) = 0 /\
  length (filter (fun o => match o with Some _ => true | None => false end) qs) = 0.
Proof.
  induction l as [|o l IH]; intros p qs H F; inversion F as [|? q ? qs' O F']; subst; simpl; auto.
  destruct o as [a|], q as [s|]; try contradiction; simpl in H.
  - destruct (the_item (S p) l) as [[[]|]|]; discriminate.
  - apply (IH _ _ H F').
Qed.
Lemma the_item_some l : forall p (qs : list (option pat)) j i, the_item p l = Some (Some (j, i)) ->
  Forall2 item_typed l qs ->
  list_max (map (fun o => match o with Some q => fst q | None => 0 end) qs) = arank i /\
  length (filter (fun o => match o with Some _ => true | None => false end) qs) = 1.
Proof.
  induction l as [|o l IH]; intros p qs j i H F; inversion F as [|? q ? qs' O F']; subst; simpl in *; [discriminate|].
  destruct o as [a|], q as [s|]; try contradiction; simpl in *.
  - destruct (the_item (S p) l) as [[[]|]|] eqn:E; try discriminate. injection H as -> ->.
    destruct (the_item_none _ _ _ E F') as [M L]. rewrite M, L. split; auto. subst s. simpl. lia.
  - apply (IH _ _ _ _ H F').
Qed.

Ltac bools := repeat match goal with H : _ && _ = true |- _ => apply andb_prop in H as [? ?] end.

(** Operands of a node, each of one array. *)
Lemma ops_typed ops G R vs ps l ss :
  Forall (fun e => forall G R p v, ytyp e = Ok p -> ydecl G e = true -> ext_declared e -> yenv_typed G R ->
            yeval R e = Ok v -> vpty v = p) ops ->
  forallb (ydecl G) ops = true -> Forall ext_declared ops -> yenv_typed G R ->
  mapM ytyp ops = Ok ps -> mapM (yeval R) ops = Ok vs -> mapM ya vs = Ok l -> mapM single ps = Ok ss ->
  map pat_of l = ss.
Proof.
  intros F D X W. revert vs ps l ss. induction F as [|e ops H F IH]; simpl in *; intros vs ps l ss T E L S.
  - injection T as <-. injection E as <-. injection L as <-. injection S as <-. reflexivity.
  - bools. inversion X; subst.
    apply bind_ok in T as (p & Tp & T). apply bind_ok in T as (ps' & Tps & T). injection T as <-.
    apply bind_ok in E as (v & Ev & E). apply bind_ok in E as (vs' & Evs & E). injection E as <-.
    simpl in L, S. apply bind_ok in L as (a & La & L). apply bind_ok in L as (l' & Ll & L). injection L as <-.
    apply bind_ok in S as (s & Sp & S). apply bind_ok in S as (ss' & Ss & S). injection S as <-.
    simpl. f_equal.
    + apply (ya_vpty v a p); auto. eapply H; eauto.
    + eapply IH; eauto.
Qed.
Lemma items_typed items G R ws qs :
  Forall (oall (fun e => forall G R p v, ytyp e = Ok p -> ydecl G e = true -> ext_declared e -> yenv_typed G R ->
            yeval R e = Ok v -> vpty v = p)) items ->
  forallb (oforall (ydecl G)) items = true -> Forall (oall ext_declared) items -> yenv_typed G R ->
  mapM (omapM (fun y => let* q := ytyp y in single q)) items = Ok qs ->
  mapM (omapM (fun y => let* w := yeval R y in ya w)) items = Ok ws ->
  Forall2 item_typed ws qs.
Proof.
  intros F D X W. revert ws qs. induction F as [|o items H F IH]; simpl in *; intros ws qs T E.
  - injection T as <-. injection E as <-. constructor.
  - bools. inversion X; subst.
    apply bind_ok in T as (p & Tp & T). apply bind_ok in T as (ps' & Tps & T). injection T as <-.
    apply bind_ok in E as (v & Ev & E). apply bind_ok in E as (vs' & Evs & E). injection E as <-.
    constructor; [|eapply IH; eauto].
    destruct o as [e|]; simpl in *.
    + apply bind_ok in Tp as (q & Tp & E). injection E as <-. apply bind_ok in Ev as (w & Ev & E). injection E as <-.
      apply bind_ok in Tp as (q' & Tp & S). apply bind_ok in Ev as (w' & Ev & A). simpl.
      apply (ya_vpty w' w q'); auto. eapply H; eauto.
    + injection Tp as <-. injection Ev as <-. exact I.
Qed.
Lemma all_ext ops :
  (fix all (l : list yarr) : Prop := match l with [] => True | x :: l => ext_declared x /\ all l end) ops ->
  Forall ext_declared ops.
Proof. induction ops as [|e ops IH]; intros H; constructor; [apply H|apply IH, H]. Qed.
Lemma oall_ext ops :
  (fix oalls (l : list (option yarr)) : Prop :=
    match l with
    | [] => True
    | o :: l => match o with Some x => ext_declared x | None => True end /\ oalls l
    end) ops ->
  Forall (oall ext_declared) ops.
Proof.
  induction ops as [|o ops IH]; intros H; constructor; [|apply IH, H]. destruct H as [H _]. destruct o; simpl; auto.
Qed.

Lemma mapM_length {A B} (f : A -> res B) l : forall l', mapM f l = Ok l' -> length l' = length l.
Proof.
  induction l as [|a l IH]; simpl; intros l' H; [injection H as <-; auto|].
  apply bind_ok in H as (b & Hb & H). apply bind_ok in H as (l'' & Hl & H). injection H as <-. simpl. f_equal. auto.
Qed.

Theorem ytyp_sound (HP : pad_typed) e : forall G R p v,
  ytyp e = Ok p -> ydecl G e = true -> ext_declared e -> yenv_typed G R -> yeval R e = Ok v -> vpty v = p.
Proof.
  induction e using yarr_ind'; intros G R p v T D X W HE; cbn [ytyp ydecl yeval] in T, D, HE.
  - injection HE as <-. injection T as <-. reflexivity.
  - injection T as <-. destruct (G x) eqn:E; [|discriminate]. simpl in D. apply pty_eqb_eq in D. subst.
    destruct (R (SV x)) eqn:E'; [|discriminate]. injection HE as <-. apply (W _ _ _ E E').
  - destruct X as [X1 X2]. bools. apply bind_ok in T as (q & Tq & T). rewrite Tq in *.
    apply bind_ok in HE as (w & Hw & HE).
    eapply IHe2; eauto. apply yenv_typed_upd; auto. eapply IHe1; eauto.
  - (* Dim *) apply bind_ok in HE as (w & Hw & HE). apply bind_ok in HE as (a & Ha & HE).
    apply bind_ok in HE as (b & Hb & HE). injection HE as <-.
    do 3 (apply bind_ok in T as (? & _ & T)). injection T as <-. simpl. f_equal. eapply nd_dim_pat; eauto.
  - (* Range *) apply bind_ok in HE as (w & Hw & HE). apply bind_ok in HE as (a & Ha & HE).
    apply bind_ok in HE as (b & Hb & HE). injection HE as <-.
    do 3 (apply bind_ok in T as (? & _ & T)). injection T as <-. reflexivity.
  - (* Concat *) apply bind_ok in HE as (vs & Hvs & HE). apply bind_ok in HE as (l & Hl & HE).
    apply bind_ok in HE as (b & Hb & HE). injection HE as <-.
    apply bind_ok in T as (ps & Tps & T). apply bind_ok in T as (ss & Tss & T).
    pose proof (ops_typed _ _ _ _ _ _ _ H D (all_ext _ X) W Tps Hvs Hl Tss) as Q.
    destruct ss as [|s ss]; [discriminate|]. apply bind_ok in T as (? & _ & T). injection T as <-.
    destruct l as [|a l]; [discriminate|]. simpl in Q, Hb. injection Q as Q _.
    simpl. f_equal. rewrite <- Q. eapply nd_concat_from_pat; eauto.
  - (* Transpose *) apply bind_ok in HE as (w & Hw & HE). apply bind_ok in HE as (a & Ha & HE).
    apply bind_ok in HE as (b & Hb & HE). injection HE as <-.
    apply bind_ok in T as (q & Tq & T). apply bind_ok in T as (s & Ts & T). apply bind_ok in T as (? & _ & T).
    injection T as <-. simpl. f_equal. rewrite (nd_transpose_pat _ _ _ Hb). apply (ya_vpty w a q); auto. eapply IHe; eauto.
  - (* Squeeze *) apply bind_ok in HE as (w & Hw & HE). apply bind_ok in HE as (a & Ha & HE).
    apply bind_ok in HE as (b & Hb & HE). injection HE as <-.
    apply bind_ok in T as (q & Tq & T). apply bind_ok in T as (? & _ & T). apply bind_ok in T as (s & Ts & T).
    unfold rank_down in T. cbn [mapM] in T. apply bind_ok in T as (s' & Ts' & T). injection T as <-.
    apply bind_ok in Ts' as (? & _ & E). injection E as <-.
    assert (P : pat_of a = s) by (apply (ya_vpty w a q); auto; eapply IHe; eauto).
    destruct (nd_squeeze_pat _ _ _ Hb) as [_ Q]. simpl. f_equal. rewrite Q, <- P. reflexivity.
  - (* Unsqueeze *) apply bind_ok in HE as (w & Hw & HE). apply bind_ok in HE as (a & Ha & HE).
    apply bind_ok in HE as (b & Hb & HE). injection HE as <-.
    apply bind_ok in T as (q & Tq & T). apply bind_ok in T as (? & _ & T). apply bind_ok in T as (s & Ts & T).
    injection T as <-.
    assert (P : pat_of a = s) by (apply (ya_vpty w a q); auto; eapply IHe; eauto).
    simpl. f_equal. rewrite (nd_unsqueeze_pat _ _ _ Hb), <- P. reflexivity.
  - (* Gather *) destruct X as [X1 X2]. bools. apply bind_ok in HE as (w & Hw & HE).
    apply bind_ok in HE as (w' & Hw' & HE).
    apply bind_ok in HE as (a & Ha & HE). apply bind_ok in HE as (b & Hb & HE).
    apply bind_ok in HE as (c & Hc & HE). injection HE as <-.
    apply bind_ok in T as (q & Tq & T). apply bind_ok in T as (? & _ & T). apply bind_ok in T as (s & Ts & T).
    do 4 (apply bind_ok in T as (? & _ & T)). injection T as <-.
    simpl. f_equal. rewrite (nd_gather_pat _ _ _ _ Hc). apply (ya_vpty w a q); auto. eapply IHe1; eauto.
  - (* Take *) destruct X as [X1 X2]. bools. apply bind_ok in HE as (w & Hw & HE).
    apply bind_ok in HE as (ws & Hws & HE). apply bind_ok in HE as (a & Ha & HE).
    apply bind_ok in HE as (c & Hc & HE). injection HE as <-.
    apply bind_ok in T as (q & Tq & T). apply bind_ok in T as (s & Ts & T). apply bind_ok in T as (qs & Tqs & T).
    do 2 (apply bind_ok in T as (? & _ & T)). apply bind_ok in T as (? & Tr & T).
    injection T as <-.
    assert (P : pat_of a = s) by (apply (ya_vpty w a q); auto; eapply IHe; eauto).
    pose proof (items_typed _ _ _ _ _ H ltac:(eassumption) (oall_ext _ X2) W Tqs Hws) as Q.
    simpl. f_equal. unfold nd_take in Hc. apply bind_ok in Hc as (? & _ & Hc).
    destruct (the_item 0 ws) as [[[j i]|]|] eqn:E; try discriminate.
    + destruct (the_item_some _ _ _ _ _ E Q) as [M L]. rewrite M, L.
      destruct (nd_take1_pat _ _ _ _ Hc) as [Hp _]. rewrite Hp, <- P. reflexivity.
    + destruct (the_item_none _ _ _ E Q) as [M L]. rewrite M, L. injection Hc as <-. rewrite P.
      destruct s. simpl. f_equal. lia.
  - (* Slice *) destruct X as [X1 X2]. bools. apply bind_ok in HE as (w & Hw & HE).
    do 2 (apply bind_ok in HE as (? & _ & HE)). apply bind_ok in HE as (a & Ha & HE).
    apply bind_ok in HE as (c & Hc & HE). injection HE as <-.
    apply bind_ok in T as (q & Tq & T). apply bind_ok in T as (s & Ts & T).
    do 4 (apply bind_ok in T as (? & _ & T)). injection T as <-.
    simpl. f_equal. rewrite (nd_slice_pat _ _ _ _ Hc). apply (ya_vpty w a q); auto. eapply IHe; eauto.
  - (* Pad *) destruct X as [X1 X2]. bools. apply bind_ok in HE as (w & Hw & HE).
    apply bind_ok in HE as (ls & Hls & HE). apply bind_ok in HE as (rs & Hrs & HE).
    apply bind_ok in HE as (a & Ha & HE).
    apply bind_ok in HE as (c & Hc & HE). injection HE as <-.
    apply bind_ok in T as (q & Tq & T). apply bind_ok in T as (s & Ts & T).
    do 2 (apply bind_ok in T as (? & _ & T)). apply bind_ok in T as (? & L1 & T). apply bind_ok in T as (? & L2 & T).
    injection T as <-. rewrite Tq in *. apply guard_ok in L1, L2. apply Nat.eqb_eq in L1, L2.
    assert (P : pat_of a = s) by (apply (ya_vpty w a q); auto; eapply IHe; eauto).
    apply single_ok in Ts. subst q. simpl in *. bools.
    f_equal. rewrite <- P in *. apply HP in Hc; auto.
    apply mapM_length in Hls, Hrs. rewrite combine_length, !map_length, Hls, Hrs, L1, L2. simpl. lia.
  - (* Repeat *) destruct X as [X1 X2]. bools. apply bind_ok in HE as (w & Hw & HE).
    apply bind_ok in HE as (w' & Hw' & HE).
    apply bind_ok in HE as (a & Ha & HE). apply bind_ok in HE as (b & Hb & HE). apply bind_ok in HE as (z & Hz & HE).
    apply bind_ok in HE as (c' & Hc & HE). injection HE as <-.
    apply bind_ok in T as (? & _ & T). apply bind_ok in T as (q & Tq & T). apply bind_ok in T as (? & _ & T).
    apply bind_ok in T as (s & Ts & T). do 2 (apply bind_ok in T as (? & _ & T)). injection T as <-.
    simpl. f_equal. rewrite (nd_repeat_pat _ _ _ _ Hc). apply (ya_vpty w a q); auto. eapply IHe2; eauto.
  - (* ReduceAxis *) apply bind_ok in HE as (w & Hw & HE). apply bind_ok in HE as (a & Ha & HE).
    apply bind_ok in HE as (b & Hb & HE). injection HE as <-.
    apply bind_ok in T as (q & Tq & T). apply bind_ok in T as (s & Ts & T). apply bind_ok in T as (? & _ & T).
    injection T as <-.
    assert (P : pat_of a = s) by (apply (ya_vpty w a q); auto; eapply IHe; eauto).
    simpl. f_equal. rewrite (nd_reduce_pat _ _ _ _ Hb), <- P. reflexivity.
  - (* Cast *) apply bind_ok in HE as (w & Hw & HE). apply bind_ok in HE as (a & Ha & HE).
    apply bind_ok in HE as (b & Hb & HE). injection HE as <-.
    apply bind_ok in T as (q & Tq & T). apply bind_ok in T as (s & Ts & T).
    injection T as <-.
    assert (P : pat_of a = s) by (apply (ya_vpty w a q); auto; eapply IHe; eauto).
    simpl. f_equal. rewrite (nd_cast_pat _ _ _ Hb), <- P. reflexivity.
  - (* Un *) apply bind_ok in HE as (w & Hw & HE). apply bind_ok in HE as (a & Ha & HE).
    apply bind_ok in HE as (b & Hb & HE). injection HE as <-.
    apply bind_ok in T as (q & Tq & T). unfold ew_type in T. cbn [mapM] in T.
    apply bind_ok in T as (ss & Ts & T). apply bind_ok in Ts as (s & Ts & E). injection E as <-.
    assert (P : pat_of a = s) by (apply (ya_vpty w a q); auto; eapply IHe; eauto).
    apply nd_ew_pat in Hb as (k & Hk & Hb). cbn [map kf1] in *. rewrite resolve_un, <- P in T. cbn [pat_of snd] in T.
    rewrite Hk in T. cbn [bind] in T. injection T as <-. simpl. f_equal. exact Hb.
  - (* Bin *) destruct X as [X1 X2]. bools. apply bind_ok in HE as (w & Hw & HE). apply bind_ok in HE as (w' & Hw' & HE).
    apply bind_ok in HE as (a & Ha & HE). apply bind_ok in HE as (b & Hb & HE).
    apply bind_ok in HE as (c & Hc & HE). injection HE as <-.
    apply bind_ok in T as (q & Tq & T). apply bind_ok in T as (q' & Tq' & T). unfold ew_type in T. cbn [mapM] in T.
    apply bind_ok in T as (ss & Ts & T). apply bind_ok in Ts as (s & Ts & E). apply bind_ok in E as (ss' & Ts' & E).
    injection E as <-. apply bind_ok in Ts' as (s' & Ts' & E). injection E as <-.
    assert (P : pat_of a = s) by (apply (ya_vpty w a q); auto; eapply IHe1; eauto).
    assert (P' : pat_of b = s') by (apply (ya_vpty w' b q'); auto; eapply IHe2; eauto).
    apply nd_ew_pat in Hc as (k & Hk & Hc). cbn [map kf2] in *. rewrite resolve_bin, <- P, <- P' in T.
    cbn [pat_of snd] in T.
    rewrite Hk in T. cbn [bind] in T. injection T as <-. simpl. f_equal. exact Hc.
  - (* Where *) destruct X as (X1 & X2 & X3). bools. apply bind_ok in HE as (w & Hw & HE).
    apply bind_ok in HE as (w' & Hw' & HE). apply bind_ok in HE as (w'' & Hw'' & HE).
    apply bind_ok in HE as (a & Ha & HE). apply bind_ok in HE as (b & Hb & HE). apply bind_ok in HE as (c & Hc & HE).
    apply bind_ok in HE as (d & Hd & HE). injection HE as <-.
    apply bind_ok in T as (q & Tq & T). apply bind_ok in T as (q' & Tq' & T). apply bind_ok in T as (q'' & Tq'' & T).
    unfold ew_type in T. cbn [mapM] in T.
    apply bind_ok in T as (ss & Ts & T). apply bind_ok in Ts as (s & Ts & E). apply bind_ok in E as (ss' & Ts' & E).
    injection E as <-. apply bind_ok in Ts' as (s' & Ts' & E). apply bind_ok in E as (ss & Ts'' & E).
    injection E as <-. apply bind_ok in Ts'' as (s'' & Ts'' & E). injection E as <-.
    assert (P : pat_of a = s) by (apply (ya_vpty w a q); auto; eapply IHe1; eauto).
    assert (P' : pat_of b = s') by (apply (ya_vpty w' b q'); auto; eapply IHe2; eauto).
    assert (P'' : pat_of c = s'') by (apply (ya_vpty w'' c q''); auto; eapply IHe3; eauto).
    apply nd_ew_pat in Hd as (k & Hk & Hd). cbn [map kf3] in *. rewrite resolve_where, <- P, <- P', <- P'' in T.
    cbn [pat_of snd] in T.
    rewrite Hk in T. cbn [bind] in T. injection T as <-. simpl. f_equal. exact Hd.
  - (* Fold *) destruct X as (X1 & X2 & X3). bools. apply bind_ok in HE as (v0 & Hv0 & HE). apply bind_ok in HE as (w & Hw & HE).
    apply bind_ok in HE as (b & Hb & HE). apply bind_ok in HE as (z & Hz & HE).
    apply bind_ok in T as (? & _ & T). apply bind_ok in T as (q & Tq & T). apply bind_ok in T as (q' & Tq' & T).
    do 2 (apply bind_ok in T as (? & _ & T)). apply bind_ok in T as (? & Tg & T). injection T as <-.
    apply guard_ok in Tg. apply pty_eqb_eq in Tg. subst q'. rewrite Tq in *. simpl in *.
    revert HE. apply (iter_res_inv (fun u => vpty u = q)); [eapply IHe2; eauto|].
    intros j c' d Wc Hd. eapply IHe3; eauto. apply yenv_typed_upd; [|reflexivity]. apply yenv_typed_upd; auto.
  - (* Reduce *) destruct X as (X1 & X2 & X3). bools. apply bind_ok in HE as (v0 & Hv0 & HE).
    apply bind_ok in HE as (vs & Hvs & HE).
    apply bind_ok in T as (q & Tq & T). apply bind_ok in T as (q' & Tq' & T). apply bind_ok in T as (r & Tr & T).
    apply bind_ok in T as (q1 & Td & T). apply bind_ok in T as (? & Tg & T). apply bind_ok in T as (? & _ & T).
    injection T as <-. apply guard_ok in Tg. apply pty_eqb_eq in Tg. subst q1.
    rewrite Tr, Tq' in *. simpl in *. bools.
    match goal with E : pty_eqb r q' = true |- _ => apply pty_eqb_eq in E; subst q' end.
    apply (reduce_call_pat _ _ _ _ _ r q) in HE; auto; [|eapply IHe1; eauto|eapply IHe3; eauto].
    intros a b w Wa Wb Hw. eapply IHe2; eauto. apply yenv_typed_upd; auto. apply yenv_typed_upd; auto.
  - (* Tuple *) apply bind_ok in HE as (vs & Hvs & HE). apply bind_ok in HE as (l & Hl & HE). injection HE as <-.
    apply bind_ok in T as (ps & Tps & T). simpl.
    apply (ops_typed _ _ _ _ _ _ _ H D (all_ext _ X) W Tps Hvs Hl T).
  - (* Untuple *) apply bind_ok in HE as (w & Hw & HE). destruct w as [|l]; [discriminate|].
    apply bind_ok in HE as (a & Ha & HE). injection HE as <-.
    apply bind_ok in T as (q & Tq & T). apply bind_ok in T as (? & _ & T). apply bind_ok in T as (s & Ts & T).
    injection T as <-. assert (P : vpty (YT l) = q) by (eapply IHe; eauto).
    simpl in P. subst q. destruct (nth_error l at_) as [b|] eqn:E; [|discriminate]. injection Ha as ->.
    rewrite (map_nth_error pat_of _ _ E) in Ts. injection Ts as <-. reflexivity.
  - (* Einsum *) apply bind_ok in HE as (vs & Hvs & HE). apply bind_ok in HE as (l & Hl & HE).
    apply bind_ok in HE as (b & Hb & HE). injection HE as <-.
    do 3 (apply bind_ok in T as (? & _ & T)). injection T as <-. simpl. f_equal. eapply nd_einsum_pat; eauto.
  - (* Extrinsic *) apply bind_ok in HE as (vs & Hvs & HE). apply bind_ok in HE as (l & Hl & HE).
    apply bind_ok in HE as (b & Hb & HE). injection HE as <-.
    apply bind_ok in T as (? & _ & T). injection T as <-. destruct X as [_ X]. symmetry. apply (X _ _ Hb).
Qed.

End YTyping.

(** The padding routines *)
Lemma ref_pad_typed {FO : FloatOps} : @pad_typed FO nd_edge_pad (fun _ => true).
Proof. intros a p b _ _ H. apply (nd_edge_pad_pat _ _ _ H). Qed.
Lemma numpy_pad_typed {FO : FloatOps} garbage : @pad_typed FO (fast_edge_pad garbage) (kind_eqb KFloat).
Proof.
  intros a p b K L H. apply kind_eqb_eq in K. unfold pad_call, fast_edge_pad in H.
  apply bind_ok in H as (? & _ & H). apply bind_ok in H as (? & _ & H). unfold arank in L.
  destruct (size_of _ =? 0).
  { injection H as <-. unfold pat_of, arank. simpl. rewrite map_length. congruence. }
  destruct (_ =? 0)%Z; [injection H as <-; auto|]. destruct (forallb _ p); [|eapply nd_edge_pad_pat; eauto].
  injection H as <-. unfold pat_of, arank, edge_sh. simpl. rewrite map_length, combine_length, L, Nat.min_id.
  congruence.
Qed.
