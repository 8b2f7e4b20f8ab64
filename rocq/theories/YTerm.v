(** Array-language terms (ein/codegen/yarr.py) as an instance of the generic
    term interface, with the execution semantics.  This is what lets the
    midend passes, written once against ein/term.py, be run on array code
    (ein/backend/numpy_backend.py:160: [outline] on the array program). *)
From Verif Require Import Base Scalar Tensor Types Sym Phi Den NdOps Term PhiTerm Yarr.

Section YTerm.
Context {FO : FloatOps} {EX : Externs} {PO : PadOps}.

(** The expressions in a tuple that may contain None. *)
Definition somes {A} (l : list (option A)) : list A :=
  flat_map (fun o => match o with Some x => [x] | None => [] end) l.

(** Replace the expressions of such a tuple, in order; the unused rest is
    returned. *)
Fixpoint fill {A} (l : list (option A)) (cs : list A) : list (option A) * list A :=
  match l with
  | [] => ([], cs)
  | None :: l => let (r, cs) := fill l cs in (None :: r, cs)
  | Some x :: l =>
      match cs with
      | [] => let (r, cs) := fill l [] in (Some x :: r, cs)
      | c :: cs => let (r, cs) := fill l cs in (Some c :: r, cs)
      end
  end.

(** The [subterms] property of every node: Const 84, Var 109, Let 138, Dim
    166, Range 187, Concat 209, Transpose 233, Squeeze 255, Unsqueeze 278,
    Gather 302, Take 328, Slice 360, Pad 390, Repeat 420, ReduceAxis 451, Cast
    475, elementwise 499, Fold 598, Reduce 639, Tuple 669, Untuple 691, Einsum
    713, Extrinsic 741. *)
Definition ysubs (e : yarr) : list yarr :=
  match e with
  | YConst _ | YVar _ _ => []
  | YLet _ b body => [b; body]
  | YDim _ t | YRange t | YTranspose _ t | YSqueeze _ t | YUnsqueeze _ t
  | YReduceAxis _ _ t | YCast _ t | YUn _ t | YUntuple _ _ t => [t]
  | YConcat ops _ | YTuple ops | YEinsum _ ops | YExt _ _ ops => ops
  | YGather _ t i => [t; i]
  | YTake t items => t :: somes items
  | YSlice t l r | YPad t l r => t :: somes l ++ somes r
  | YRepeat _ c t => [c; t]
  | YBin _ a b _ => [a; b]
  | YWhere c a b => [c; a; b]
  | YFold _ s _ init body => [s; init; body]
  | YReduce init _ _ xy vecs _ => [init; xy; vecs]
  end.

(** [map] with the new subterms given by position.  The Python [map] of a
    binary node drops the [inplace] marker (yarr.py:502-503); see [ymap]. *)
Definition yrebuild (e : yarr) (cs : list yarr) : yarr :=
  match e, cs with
  | YLet x _ _, [b; body] => YLet x b body
  | YDim ax _, [t] => YDim ax t
  | YRange _, [t] => YRange t
  | YConcat _ ax, ops => YConcat ops ax
  | YTranspose pi _, [t] => YTranspose pi t
  | YSqueeze axes _, [t] => YSqueeze axes t
  | YUnsqueeze axes _, [t] => YUnsqueeze axes t
  | YGather ax _ _, [t; i] => YGather ax t i
  | YTake _ items, t :: cs => YTake t (fst (fill items cs))
  | YSlice _ l r, t :: cs => YSlice t (fst (fill l cs)) (fst (fill r (snd (fill l cs))))
  | YPad _ l r, t :: cs => YPad t (fst (fill l cs)) (fst (fill r (snd (fill l cs))))
  | YRepeat ax _ _, [c; t] => YRepeat ax c t
  | YReduceAxis r ax _, [t] => YReduceAxis r ax t
  | YCast k _, [t] => YCast k t
  | YUn o _, [t] => YUn o t
  | YBin o _ _ i, [a; b] => YBin o a b i
  | YWhere _ _ _, [c; a; b] => YWhere c a b
  | YFold c _ acc _ _, [s; init; body] => YFold c s acc init body
  | YReduce _ x y _ _ ax, [init; xy; vecs] => YReduce init x y xy vecs ax
  | YTuple _, ops => YTuple ops
  | YUntuple p n _, [t] => YUntuple p n t
  | YEinsum s _, ops => YEinsum s ops
  | YExt t f _, ops => YExt t f ops
  | e, _ => e
  end.

(** The Python [map]: Let 141, Dim 169, Range 190, Concat 212, Transpose 236,
    Squeeze 258, Unsqueeze 281, Gather 305, Take 331, Slice 365, Pad 395,
    Repeat 423, ReduceAxis 454, Cast 478, elementwise 502, Fold 601, Reduce
    642, Tuple 672, Untuple 694, Einsum 716, Extrinsic 744. *)
Definition ymap (f : yarr -> yarr) (e : yarr) : yarr :=
  match e with
  | YConst _ | YVar _ _ => e
  | YLet x b body => YLet x (f b) (f body)
  | YDim ax t => YDim ax (f t)
  | YRange t => YRange (f t)
  | YConcat ops ax => YConcat (map f ops) ax
  | YTranspose pi t => YTranspose pi (f t)
  | YSqueeze axes t => YSqueeze axes (f t)
  | YUnsqueeze axes t => YUnsqueeze axes (f t)
  | YGather ax t i => YGather ax (f t) (f i)
  | YTake t items => YTake (f t) (map (option_map f) items)
  | YSlice t l r => YSlice (f t) (map (option_map f) l) (map (option_map f) r)
  | YPad t l r => YPad (f t) (map (option_map f) l) (map (option_map f) r)
  | YRepeat ax c t => YRepeat ax (f c) (f t)
  | YReduceAxis r ax t => YReduceAxis r ax (f t)
  | YCast k t => YCast k (f t)
  | YUn o t => YUn o (f t)
  | YBin o a b _ => YBin o (f a) (f b) None
  | YWhere c a b => YWhere (f c) (f a) (f b)
  | YFold c s acc init body => YFold c (f s) acc (f init) (f body)
  | YReduce init x y xy vecs ax => YReduce (f init) x y (f xy) (f vecs) ax
  | YTuple ops => YTuple (map f ops)
  | YUntuple p n t => YUntuple p n (f t)
  | YEinsum s ops => YEinsum s (map f ops)
  | YExt t g ops => YExt t g (map f ops)
  end.

Lemma somes_map {A B} (f : A -> B) l : somes (map (option_map f) l) = map f (somes l).
Proof. induction l as [|[x|] l IH]; simpl; auto. rewrite IH. reflexivity. Qed.

Lemma fill_map {A} (f : A -> A) l r :
  fill l (map f (somes l) ++ r) = (map (option_map f) l, r).
Proof. induction l as [|[x|] l IH]; simpl; auto; rewrite IH; reflexivity. Qed.

Lemma fill_map0 {A} (f : A -> A) l : fill l (map f (somes l)) = (map (option_map f) l, []).
Proof. rewrite <- (app_nil_r (map f (somes l))). apply fill_map. Qed.

Definition marker (e : yarr) : option nat := match e with YBin _ _ _ i => i | _ => None end.

(** On nodes without the marker, [map] is [yrebuild] of the mapped subterms. *)
Lemma ymap_rebuild f e : marker e = None -> ymap f e = yrebuild e (map f (ysubs e)).
Proof.
  destruct e; simpl; intros H; auto.
  - rewrite fill_map0. reflexivity.
  - rewrite map_app, fill_map. simpl. rewrite fill_map0. reflexivity.
  - rewrite map_app, fill_map. simpl. rewrite fill_map0. reflexivity.
  - subst. reflexivity.
Qed.

(** Captured symbols: Let 153, Fold 621, Reduce 656. *)
Definition ycapt (e : yarr) : list sym :=
  match e with
  | YLet x _ _ => [SV x]
  | YFold c _ acc _ _ => [SV c; SV acc]
  | YReduce _ x y _ _ _ => [SV x; SV y]
  | _ => []
  end.

(** Which captured symbols are bound when which subterm runs
    (array_backend.py:84-155,172-180). *)
Definition yscopes (e : yarr) : list (list sym) :=
  match e with
  | YLet x _ _ => [[]; [SV x]]
  | YFold c _ acc _ _ => [[]; []; [SV acc; SV c]]
  | YReduce _ x y _ _ _ => [[]; [SV x; SV y]; []]
  | _ => map (fun _ => []) (ysubs e)
  end.

Fixpoint ysize (e : yarr) : nat :=
  let osize o := match o with Some y => ysize y | None => 0 end in
  S match e with
    | YConst _ | YVar _ _ => 0
    | YLet _ b body => ysize b + ysize body
    | YDim _ t | YRange t | YTranspose _ t | YSqueeze _ t | YUnsqueeze _ t
    | YReduceAxis _ _ t | YCast _ t | YUn _ t | YUntuple _ _ t => ysize t
    | YConcat ops _ | YTuple ops | YEinsum _ ops | YExt _ _ ops => list_sum (map ysize ops)
    | YGather _ t i => ysize t + ysize i
    | YTake t items => ysize t + list_sum (map osize items)
    | YSlice t l r | YPad t l r => ysize t + list_sum (map osize l) + list_sum (map osize r)
    | YRepeat _ c t => ysize c + ysize t
    | YBin _ a b _ => ysize a + ysize b
    | YWhere c a b => ysize c + ysize a + ysize b
    | YFold _ s _ init body => ysize s + ysize init + ysize body
    | YReduce init _ _ xy vecs _ => ysize init + ysize xy + ysize vecs
    end.

Lemma osize_somes x l : In x (somes l) ->
  ysize x <= list_sum (map (fun o => match o with Some y => ysize y | None => 0 end) l).
Proof.
  induction l as [|[y|] l IH]; simpl; intros H; [tauto| |apply IH, H].
  destruct H as [->|H]; [lia|]. specialize (IH H). lia.
Qed.

Lemma ysize_sub e c : In c (ysubs e) -> ysize c < ysize e.
Proof.
  destruct e; cbn [ysubs]; intros H; try (apply (In_list_sum_le ysize) in H; simpl; lia);
    simpl in *; repeat (destruct H as [<-|H]; [lia|]); try tauto.
  - apply osize_somes in H. lia.
  - apply in_app_or in H as [H|H]; apply osize_somes in H; lia.
  - apply in_app_or in H as [H|H]; apply osize_somes in H; lia.
Qed.

(** The fields of a node that are not expressions (and which optional ones are
    present). *)
Definition yhead (e : yarr) : nat * list nat * list (list nat) * list bool * pty * list arr * list kind
  * list uop * list bop :=
  let pres l := map (fun o : option yarr => match o with Some _ => true | None => false end) l in
  let on o := match o with Some n => [S n] | None => [] end in
  match e with
  | YConst a => (0, [], [], [], [], [a], [], [], [])
  | YVar x t => (1, [x], [], [], t, [], [], [], [])
  | YLet x _ _ => (2, [x], [], [], [], [], [], [], [])
  | YDim ax _ => (3, [ax], [], [], [], [], [], [], [])
  | YRange _ => (4, [], [], [], [], [], [], [], [])
  | YConcat ops ax => (5, [ax; length ops], [], [], [], [], [], [], [])
  | YTranspose pi _ => (6, pi, [], [], [], [], [], [], [])
  | YSqueeze axes _ => (7, axes, [], [], [], [], [], [], [])
  | YUnsqueeze axes _ => (8, axes, [], [], [], [], [], [], [])
  | YGather ax _ _ => (9, [ax], [], [], [], [], [], [], [])
  | YTake _ items => (10, [], [], pres items, [], [], [], [], [])
  | YSlice _ l r => (11, [length l], [], pres (l ++ r), [], [], [], [], [])
  | YPad _ l r => (12, [length l], [], pres (l ++ r), [], [], [], [], [])
  | YRepeat ax _ _ => (13, [ax], [], [], [], [], [], [], [])
  | YReduceAxis r ax _ => (14, [ax], [], [], [], [], [], [], [rop_bop r])
  | YCast k _ => (15, [], [], [], [], [], [k], [], [])
  | YUn o _ => (16, [], [], [], [], [], [], [o], [])
  | YBin o _ _ i => (17, on i, [], [], [], [], [], [], [o])
  | YWhere _ _ _ => (18, [], [], [], [], [], [], [], [])
  | YFold c _ acc _ _ => (19, [c; acc], [], [], [], [], [], [], [])
  | YReduce _ x y _ _ ax => (20, [x; y; ax], [], [], [], [], [], [], [])
  | YTuple ops => (21, [length ops], [], [], [], [], [], [], [])
  | YUntuple p n _ => (22, [p; n], [], [], [], [], [], [], [])
  | YEinsum s ops => (23, length ops :: snd s, fst s, [], [], [], [], [], [])
  | YExt t f ops => (24, [f; length ops], [], [], t, [], [], [], [])
  end.

Definition yhead_eq_dec (a b : yarr) : {yhead a = yhead b} + {yhead a <> yhead b}.
Proof.
  repeat first [apply arr_eq_dec | decide equality].
Defined.

(** term.py:27-34: equal when the fields are (see [phi_eqb]).  The first
    argument bounds the recursion. *)
Fixpoint yeqb_n (n : nat) (a b : yarr) : bool :=
  match n with
  | 0 => false
  | S n =>
      (if yhead_eq_dec a b then true else false) &&
      (length (ysubs a) =? length (ysubs b)) &&
      forallb (fun p => yeqb_n n (fst p) (snd p)) (combine (ysubs a) (ysubs b))
  end.
Definition yeqb (a b : yarr) : bool := yeqb_n (ysize a) a b.

(** term.py:80-83 [free_symbols] *)
Definition ysym (e : yarr) : option sym := match e with YVar x _ => Some (SV x) | _ => None end.
Fixpoint yfree_n (n : nat) (e : yarr) : list sym :=
  match n with
  | 0 => []
  | S n =>
      filter (fun s => negb (smem s (ycapt e)))
        (match ysym e with Some s => [s] | None => [] end ++ flat_map (yfree_n n) (ysubs e))
  end.
Definition yfree (e : yarr) : list sym := yfree_n (ysize e) e.

Global Instance YOpsT : TermOps yarr := {|
  subs := ysubs;
  rebuild := yrebuild;
  capt := ycapt;
  scopes := yscopes;
  (* yarr.py:127-128 *)
  symof := ysym;
  (* yarr.py:156-157 *)
  unlet := fun e => match e with YLet x b body => Some (x, b, body) | _ => None end;
  (* yarr.py:75-76 *)
  wrap_let := YLet;
  (* yarr.py:72-73; a term that exists has a type *)
  wrap_var := fun x e => YVar x (match ytyp e with Ok t => t | Err _ => [] end);
  (* yarr.py:87-89, 123-125 *)
  is_atom := fun e =>
    match e with
    | YVar _ _ => true
    | YConst a => match ashape a with [] => true | _ => false end
    | _ => false
    end;
  (* yarr.py:624-626, 659-661 *)
  is_loop := fun e => match e with YFold _ _ _ _ _ | YReduce _ _ _ _ _ _ => true | _ => false end;
  teqb := yeqb;
  tsize := ysize;
  tfree := yfree
|}.

Lemma fill_split {A} (l : list (option A)) cs r :
  length cs = length (somes l) -> exists l', fill l (cs ++ r) = (l', r) /\ somes l' = cs /\
    map (fun o => match o with Some _ => true | None => false end) l' =
    map (fun o => match o with Some _ => true | None => false end) l.
Proof.
  revert cs. induction l as [|[x|] l IH]; simpl; intros cs H.
  - destruct cs; [|discriminate]. exists []. auto.
  - destruct cs as [|c cs]; [discriminate|]. simpl. injection H as H.
    destruct (IH cs H) as (l' & E & S1 & S2). rewrite E. exists (Some c :: l').
    simpl. rewrite S1, S2. auto.
  - destruct (IH cs H) as (l' & E & S1 & S2). rewrite E. exists (None :: l').
    simpl. rewrite S1, S2. auto.
Qed.

Lemma fill_split0 {A} (l : list (option A)) cs :
  length cs = length (somes l) -> exists l', fill l cs = (l', []) /\ somes l' = cs /\
    map (fun o => match o with Some _ => true | None => false end) l' =
    map (fun o => match o with Some _ => true | None => false end) l.
Proof. intros H. destruct (fill_split l cs [] H) as (l' & E & R). rewrite app_nil_r in E. eauto. Qed.

Lemma fill_somes {A} (l : list (option A)) r : fill l (somes l ++ r) = (l, r).
Proof. induction l as [|[x|] l IH]; simpl; auto; rewrite IH; reflexivity. Qed.
Lemma fill_somes0 {A} (l : list (option A)) : fill l (somes l) = (l, []).
Proof. rewrite <- (app_nil_r (somes l)) at 1. apply fill_somes. Qed.

(** Filling depends only on which entries are present. *)
Lemma fill_pres {A} (l l' : list (option A)) cs :
  map (fun o => match o with Some _ => true | None => false end) l =
  map (fun o => match o with Some _ => true | None => false end) l' ->
  length (somes l) <= length cs -> fill l cs = fill l' cs.
Proof.
  revert l' cs. induction l as [|o l IH]; destruct l' as [|o' l']; simpl; intros cs H HL; try discriminate; auto.
  injection H as H1 H2. destruct o, o'; try discriminate; simpl in HL.
  - destruct cs; simpl in HL; [lia|]. rewrite (IH l' cs H2) by lia. reflexivity.
  - rewrite (IH l' cs H2) by lia. reflexivity.
Qed.

Lemma split_app {A} (cs : list A) n m : length cs = n + m ->
  exists c1 c2, cs = c1 ++ c2 /\ length c1 = n /\ length c2 = m.
Proof.
  intros H. exists (firstn n cs), (skipn n cs). rewrite firstn_skipn, firstn_length, skipn_length.
  repeat split; lia.
Qed.

Lemma somes_pres_length {A} (l l' : list (option A)) :
  map (fun o => match o with Some _ => true | None => false end) l =
  map (fun o => match o with Some _ => true | None => false end) l' ->
  length (somes l) = length (somes l').
Proof.
  revert l'. induction l as [|o l IH]; destruct l' as [|o' l']; simpl; intros H; try discriminate; auto.
  injection H as H1 H2. destruct o, o'; try discriminate; simpl; auto.
Qed.

Ltac yl cs H :=
  let a := fresh "q" in let b := fresh "q" in let c := fresh "q" in let r := fresh "qs" in
  destruct cs as [|a [|b [|c r]]]; simpl in H; try discriminate H;
  try (destruct r; [|discriminate H]).

(** Shape of the list of children of each node. *)
Ltac ychildren cs H :=
  match type of H with
  | _ = length (ysubs (YConcat _ _)) => idtac
  | _ = length (ysubs (YTuple _)) => idtac
  | _ = length (ysubs (YEinsum _ _)) => idtac
  | _ = length (ysubs (YExt _ _ _)) => idtac
  | _ = length (ysubs (YTake _ ?l)) =>
      let t := fresh "q" in let r := fresh "qs" in
      destruct cs as [|t r]; [discriminate H|]; injection H as H;
      let l' := fresh "l'" in let E := fresh "E" in let S1 := fresh "S1" in let S2 := fresh "S2" in
      destruct (fill_split0 l r H) as (l' & E & S1 & S2)
  | _ = length (ysubs (YSlice _ ?l ?m)) =>
      let t := fresh "q" in let r := fresh "qs" in
      destruct cs as [|t r]; [discriminate H|]; injection H as H; rewrite app_length in H;
      let c1 := fresh "cl" in let c2 := fresh "cr" in let H1 := fresh "HL" in let H2 := fresh "HR" in
      destruct (split_app r _ _ H) as (c1 & c2 & -> & H1 & H2);
      let l' := fresh "l'" in let E := fresh "E" in let S1 := fresh "S1" in let S2 := fresh "S2" in
      let m' := fresh "m'" in let E' := fresh "E'" in let S1' := fresh "S1'" in let S2' := fresh "S2'" in
      destruct (fill_split l c1 c2 H1) as (l' & E & S1 & S2);
      destruct (fill_split0 m c2 H2) as (m' & E' & S1' & S2')
  | _ = length (ysubs (YPad _ ?l ?m)) =>
      let t := fresh "q" in let r := fresh "qs" in
      destruct cs as [|t r]; [discriminate H|]; injection H as H; rewrite app_length in H;
      let c1 := fresh "cl" in let c2 := fresh "cr" in let H1 := fresh "HL" in let H2 := fresh "HR" in
      destruct (split_app r _ _ H) as (c1 & c2 & -> & H1 & H2);
      let l' := fresh "l'" in let E := fresh "E" in let S1 := fresh "S1" in let S2 := fresh "S2" in
      let m' := fresh "m'" in let E' := fresh "E'" in let S1' := fresh "S1'" in let S2' := fresh "S2'" in
      destruct (fill_split l c1 c2 H1) as (l' & E & S1 & S2);
      destruct (fill_split0 m c2 H2) as (m' & E' & S1' & S2')
  | _ => yl cs H
  end.

Lemma ysubs_rebuild e cs : length cs = length (ysubs e) -> ysubs (yrebuild e cs) = cs.
Proof.
  intros H. destruct e; ychildren cs H; try reflexivity; simpl.
  - rewrite E. simpl. congruence.
  - rewrite E. simpl. rewrite E'. simpl. congruence.
  - rewrite E. simpl. rewrite E'. simpl. congruence.
Qed.

Lemma yrebuild_subs e : yrebuild e (ysubs e) = e.
Proof.
  destruct e; simpl; auto; rewrite ?fill_somes0, ?fill_somes; simpl; rewrite ?fill_somes0; reflexivity.
Qed.

Lemma ysym_rebuild e cs : length cs = length (ysubs e) -> ysym (yrebuild e cs) = ysym e.
Proof. intros H. destruct e; ychildren cs H; reflexivity. Qed.

Lemma ycapt_rebuild e cs : length cs = length (ysubs e) -> ycapt (yrebuild e cs) = ycapt e.
Proof. intros H. destruct e; ychildren cs H; reflexivity. Qed.

Lemma map_const_length {A B} (b : B) (l l' : list A) :
  length l = length l' -> map (fun _ => b) l = map (fun _ => b) l'.
Proof. revert l'. induction l; destruct l'; simpl; intros; try lia; auto. f_equal. auto. Qed.

Lemma yscopes_rebuild e cs : length cs = length (ysubs e) -> yscopes (yrebuild e cs) = yscopes e.
Proof.
  intros H.
  assert (K : yscopes e = map (fun _ => []) (ysubs e) \/ yscopes e <> map (fun _ => []) (ysubs e))
    by (destruct e; auto; right; discriminate).
  destruct K as [K|K].
  - transitivity (map (fun _ : yarr => @nil sym) (ysubs (yrebuild e cs))).
    + destruct e; try discriminate; ychildren cs H; reflexivity.
    + rewrite K, ysubs_rebuild by auto. apply map_const_length. auto.
  - destruct e; try (exfalso; apply K; reflexivity); ychildren cs H; reflexivity.
Qed.

Lemma yrebuild_rebuild e cs cs' :
  length cs = length (ysubs e) -> length cs' = length (ysubs e) ->
  yrebuild (yrebuild e cs) cs' = yrebuild e cs'.
Proof.
  intros H H'. destruct e; try (ychildren cs H; ychildren cs' H'; reflexivity).
  - ychildren cs H. destruct cs' as [|q' qs']; [discriminate H'|]. simpl in *. injection H' as H'.
    rewrite E. simpl. rewrite (fill_pres l' items qs'); auto.
    rewrite (somes_pres_length _ _ S2). lia.
  - ychildren cs H. destruct cs' as [|q' qs']; [discriminate H'|]. simpl in *. injection H' as H'.
    rewrite app_length in H'. rewrite E. simpl. rewrite E'. simpl.
    rewrite (fill_pres l' starts qs') by (auto; rewrite (somes_pres_length _ _ S2); lia).
    destruct (split_app qs' _ _ H') as (c1 & c2 & -> & L1 & L2).
    destruct (fill_split starts c1 c2 L1) as (l'' & E2 & _). rewrite E2. simpl.
    rewrite (fill_pres m' stops c2); auto. rewrite (somes_pres_length _ _ S2'). lia.
  - ychildren cs H. destruct cs' as [|q' qs']; [discriminate H'|]. simpl in *. injection H' as H'.
    rewrite app_length in H'. rewrite E. simpl. rewrite E'. simpl.
    rewrite (fill_pres l' lefts qs') by (auto; rewrite (somes_pres_length _ _ S2); lia).
    destruct (split_app qs' _ _ H') as (c1 & c2 & -> & L1 & L2).
    destruct (fill_split lefts c1 c2 L1) as (l'' & E2 & _). rewrite E2. simpl.
    rewrite (fill_pres m' rights c2); auto. rewrite (somes_pres_length _ _ S2'). lia.
Qed.

(** Nodes with the same head differ only in their subterms. *)
Lemma pres_app {A} (l1 l2 m1 m2 : list (option A)) :
  length l1 = length m1 ->
  map (fun o => match o with Some _ => true | None => false end) (l1 ++ l2) =
  map (fun o => match o with Some _ => true | None => false end) (m1 ++ m2) ->
  map (fun o => match o with Some _ => true | None => false end) l1 =
  map (fun o => match o with Some _ => true | None => false end) m1 /\
  map (fun o => match o with Some _ => true | None => false end) l2 =
  map (fun o => match o with Some _ => true | None => false end) m2.
Proof.
  revert m1. induction l1 as [|o l1 IH]; destruct m1 as [|o' m1]; simpl; intros H E; try discriminate; auto.
  injection H as H. injection E as E1 E2. destruct (IH m1 H E2) as [P1 P2]. rewrite P1, E1. auto.
Qed.

Lemma yhead_rebuild a b : yhead a = yhead b -> yrebuild a (ysubs b) = b.
Proof.
  intros H. destruct a, b; try discriminate H; simpl in *.
  all: try reflexivity.
  all: try (injection H; intros; subst; reflexivity).
  - injection H as H. rewrite (fill_pres items items0) by (auto; rewrite (somes_pres_length _ _ H); auto).
    rewrite fill_somes0. reflexivity.
  - injection H as HL H. destruct (pres_app _ _ _ _ HL H) as [P1 P2].
    rewrite (fill_pres starts starts0) by (auto; rewrite (somes_pres_length _ _ P1), app_length; lia).
    rewrite fill_somes. simpl.
    rewrite (fill_pres stops stops0) by (auto; rewrite (somes_pres_length _ _ P2); lia).
    rewrite fill_somes0. reflexivity.
  - injection H as HL H. destruct (pres_app _ _ _ _ HL H) as [P1 P2].
    rewrite (fill_pres lefts lefts0) by (auto; rewrite (somes_pres_length _ _ P1), app_length; lia).
    rewrite fill_somes. simpl.
    rewrite (fill_pres rights rights0) by (auto; rewrite (somes_pres_length _ _ P2); lia).
    rewrite fill_somes0. reflexivity.
  - destruct r, r0; try discriminate H; injection H as ->; reflexivity.
  - destruct inplace, inplace0; try discriminate H; injection H; intros; subst; reflexivity.
  - destruct s, s0. simpl in H. injection H; intros; subst. reflexivity.
Qed.

Lemma yeqb_n_eq n : forall a b, ysize a <= n -> (yeqb_n n a b = true <-> a = b).
Proof.
  induction n as [|n IH]; intros a b Hn; [destruct a; simpl in Hn; lia|].
  simpl. rewrite !andb_true_iff, Nat.eqb_eq. split.
  - intros [[H1 H2] H3]. destruct (yhead_eq_dec a b) as [E|]; [|discriminate].
    assert (S : ysubs a = ysubs b).
    { assert (B : forall x, In x (ysubs a) -> ysize x <= n)
        by (intros x Hx; apply ysize_sub in Hx; lia).
      clear - H2 H3 B IH. revert H2 H3 B. generalize (ysubs b) as lb. induction (ysubs a) as [|x l IHl];
        destruct lb as [|y lb]; simpl; intros H2 H3 B; try discriminate; auto.
      apply andb_true_iff in H3 as [H3 H4]. f_equal.
      - apply IH in H3; auto.
      - apply IHl; auto. }
    rewrite <- (yrebuild_subs a), S. apply yhead_rebuild. exact E.
  - intros <-. split; [split|]; auto.
    + destruct (yhead_eq_dec a a); congruence.
    + apply forallb_forall. intros [x y] Hxy. simpl.
      assert (In x (ysubs a)) by (apply in_combine_l in Hxy; auto).
      apply IH; [apply ysize_sub in H; lia|]. clear - Hxy.
      induction (ysubs a); simpl in Hxy; [tauto|]. destruct Hxy as [E|]; [congruence|auto].
Qed.

Lemma yfree_n_eq n : forall e, ysize e <= n -> yfree_n n e = yfree e.
Proof.
  induction n as [n IH] using lt_wf_ind. intros e Hn. unfold yfree.
  destruct n as [|n]; [destruct e; simpl in Hn; lia|].
  destruct (ysize e) as [|m] eqn:Em; [destruct e; discriminate Em|]. simpl. f_equal. f_equal.
  assert (F : forall x, In x (ysubs e) -> yfree_n n x = yfree_n m x).
  { intros x Hx. apply ysize_sub in Hx. rewrite IH by lia.
    symmetry. apply IH; lia. }
  induction (ysubs e) as [|x l IHl]; simpl; auto. rewrite F by (left; auto). f_equal.
  apply IHl. intros y Hy. apply F. right. auto.
Qed.

Lemma yfree_spec e s : In s (yfree e) <->
  ((ysym e = Some s \/ exists c, In c (ysubs e) /\ In s (yfree c)) /\ ~ In s (ycapt e)).
Proof.
  unfold yfree at 1. destruct (ysize e) as [|m] eqn:Em; [destruct e; discriminate Em|]. simpl.
  rewrite filter_In, in_app_iff, in_flat_map, negb_true_iff.
  assert (K : smem s (ycapt e) = false <-> ~ In s (ycapt e)).
  { rewrite <- smem_In. destruct (smem s (ycapt e)); split; congruence. }
  rewrite K. clear K.
  assert (X : (exists x, In x (ysubs e) /\ In s (yfree_n m x)) <->
              (exists c, In c (ysubs e) /\ In s (yfree c))).
  { split; intros (x & Hx & Hs); exists x; split; auto.
    - rewrite yfree_n_eq in Hs; auto. apply ysize_sub in Hx. lia.
    - rewrite yfree_n_eq; auto. apply ysize_sub in Hx. lia. }
  rewrite X. destruct (ysym e) as [s'|]; simpl; intuition (try congruence).
Qed.

Lemma yscope_const {A} (l : list A) k sc s :
  nth_error (map (fun _ => @nil sym) l) k = Some sc -> In s sc -> False.
Proof. apply scope_const. Qed.

Global Instance YLawsT : TermLaws yarr.
Proof.
  constructor.
  - apply yrebuild_subs.
  - apply ysubs_rebuild.
  - apply ycapt_rebuild.
  - apply yscopes_rebuild.
  - apply ysym_rebuild.
  - apply yrebuild_rebuild.
  - intros t. simpl. destruct t; simpl; auto; rewrite ?app_length, ?map_length, ?app_length; auto.
  - intros t k k' sc sc' s H H' Hs Hs'. simpl in *.
    assert (K : yscopes t = map (fun _ => []) (ysubs t) \/ yscopes t <> map (fun _ => []) (ysubs t))
      by (destruct t; auto; right; discriminate).
    destruct K as [K|K]; [rewrite K in H; exfalso; eapply yscope_const; eauto|].
    destruct t; try (exfalso; apply K; reflexivity); simpl in *;
      destruct k as [|[|[|k]]]; simpl in H; try discriminate;
      destruct k' as [|[|[|k']]]; simpl in H'; try discriminate; auto;
      try (injection H as <-; destruct Hs); try (injection H' as <-; destruct Hs');
      try (destruct k; discriminate); try (destruct k'; discriminate).
  - intros t sc s H Hs. simpl in *.
    destruct t; simpl in *;
      try (apply in_map_iff in H as (? & <- & _); destruct Hs);
      repeat (destruct H as [H|H]; [subst sc; simpl in *; tauto|]); try contradiction;
      apply in_map_iff in H as (? & <- & _); destruct Hs.
  - intros t s H. destruct t; simpl in *; try discriminate. auto.
  - intros t. destruct t; simpl; lia.
  - apply ysize_sub.
  - intros a b. apply yeqb_n_eq. auto.
  - intros t x b body H. destruct t; simpl in *; try discriminate. injection H as <- <- <-. auto.
  - reflexivity.
  - intros t cs H. simpl in *. destruct t; ychildren cs H; split; simpl; congruence.
  - reflexivity.
  - intros x y t u H. simpl in H. congruence.
  - intros t H. destruct t; simpl in *; try discriminate; auto.
  - intros t s H. destruct t; simpl in *; try discriminate; auto.
  - apply yfree_spec.
Qed.

(** * Execution is compositional *)

Lemma ref_omapM {A B} (f g : A -> res B) l : forall l',
  map (fun o => match o with Some _ => true | None => false end) l' =
  map (fun o => match o with Some _ => true | None => false end) l ->
  (forall k x y, nth_error (somes l) k = Some x -> nth_error (somes l') k = Some y -> ref (f x) (g y)) ->
  ref (mapM (omapM f) l) (mapM (omapM g) l').
Proof.
  induction l as [|o l IH]; destruct l' as [|o' l']; simpl; intros HP H; try discriminate; [apply ref_refl|].
  injection HP as HP1 HP2. destruct o as [x|], o' as [y|]; try discriminate; simpl in *.
  - apply ref_bind.
    + apply ref_bind; [apply (H 0); reflexivity|intros; apply ref_refl].
    + intros b. apply ref_bind; [|intros; apply ref_refl]. apply IH; auto. intros k. apply (H (S k)).
  - apply ref_bind; [|intros; apply ref_refl]. apply IH; auto.
Qed.

Lemma ref_tree get1 get2 ax fuel :
  (forall p q, ref (get1 p q) (get2 p q)) ->
  forall n vals acc, ref (tree_loop get1 ax fuel n vals acc) (tree_loop get2 ax fuel n vals acc).
Proof.
  intros H. induction fuel as [|fuel IH]; intros n vals acc; [apply ref_refl|]. simpl.
  destruct (1 <? n).
  - apply ref_bind.
    + destruct (Nat.odd n); [|apply ref_refl]. apply ref_bind; [apply ref_refl|auto].
    + intros ac. apply ref_bind; [apply ref_refl|]. intros p. apply ref_bind; [apply ref_refl|]. intros q.
      apply ref_bind; auto.
  - destruct (n =? 1); [|apply ref_refl]. apply ref_bind; [apply ref_refl|auto].
Qed.

Lemma ref_reduce run1 run2 ax acc vals :
  (forall a b, ref (run1 a b) (run2 a b)) ->
  ref (reduce_call run1 ax acc vals) (reduce_call run2 ax acc vals).
Proof.
  intros H. unfold reduce_call. apply ref_bind; [apply ref_refl|]. intros vs.
  apply ref_bind; [apply ref_refl|]. intros ac. apply ref_bind; [apply ref_refl|]. intros ns.
  destruct ns as [|n ns]; [apply ref_refl|]. apply ref_bind; [apply ref_refl|]. intros _.
  apply ref_bind; [apply ref_refl|]. intros ac'. apply ref_bind; [|intros; apply ref_refl].
  apply ref_tree. intros p q. apply ref_bind; [apply ref_refl|]. intros x.
  apply ref_bind; [apply ref_refl|]. intros y. apply ref_bind; [auto|intros; apply ref_refl].
Qed.

Ltac rb := apply ref_bind; [|intros].
Ltac rr := first [apply ref_refl | rb; [apply ref_refl|rr]].

Global Instance YSemT : TermSem yarr yval yeval.
Proof.
  constructor.
  - intros E t s H. destruct t; simpl in *; try discriminate. injection H as <-. reflexivity.
  - intros E t x b body H. destruct t; simpl in *; try discriminate. injection H as -> -> ->. reflexivity.
  - intros t cs E1 E2 Hs Hl H. simpl in Hs, Hl.
    assert (H0 : forall k c c', nth_error (ysubs t) k = Some c -> nth_error cs k = Some c' ->
                 nth_error (yscopes t) k = Some [] -> ref (yeval E1 c) (yeval E2 c')).
    { intros k c c' Hc Hc' Hsc. apply (H k c c' [] [] Hc Hc' Hsc eq_refl). }
    assert (H1 : yscopes t = map (fun _ => []) (ysubs t) ->
                 forall k c c', nth_error (ysubs t) k = Some c -> nth_error cs k = Some c' ->
                 ref (yeval E1 c) (yeval E2 c')).
    { intros Hsc k c c' Hc Hc'. apply (H0 k); auto. rewrite Hsc, nth_error_map, Hc. reflexivity. }
    assert (HM : yscopes t = map (fun _ => []) (ysubs t) ->
                 ref (mapM (yeval E1) (ysubs t)) (mapM (yeval E2) cs)).
    { intros Hsc. apply ref_mapM2; [symmetry; exact Hl|]. intros k x y Hx Hy. apply (H1 Hsc k); auto. }
    destruct t; simpl in Hs; try discriminate;
      try (specialize (H1 eq_refl)); try (specialize (HM eq_refl)); cbn [ysubs] in *.
    + simpl. apply ref_refl.
    + ychildren cs Hl. simpl. rb; [apply (H0 0); reflexivity|].
      apply (H 1 t2 q0 [SV x] [(SV x, a)]); reflexivity.
    + ychildren cs Hl. simpl. rb; [apply (H1 0); reflexivity|]. rr.
    + ychildren cs Hl. simpl. rb; [apply (H1 0); reflexivity|]. rr.
    + simpl. rb; [exact HM|]. rr.
    + ychildren cs Hl. simpl. rb; [apply (H1 0); reflexivity|]. rr.
    + ychildren cs Hl. simpl. rb; [apply (H1 0); reflexivity|]. rr.
    + ychildren cs Hl. simpl. rb; [apply (H1 0); reflexivity|]. rr.
    + ychildren cs Hl. simpl. rb; [apply (H1 0); reflexivity|]. rb; [apply (H1 1); reflexivity|]. rr.
    + destruct cs as [|q qs]; [discriminate Hl|]. injection Hl as Hl.
      destruct (fill_split0 items qs Hl) as (l' & E & S1 & S2).
      simpl. rewrite E. simpl. rb; [apply (H1 0); reflexivity|].
      rb; [|rr]. apply ref_omapM; auto. rewrite S1. intros k u w Hu Hw.
      rb; [|rr]. apply (H1 (S k)); auto.
    + destruct cs as [|q qs]; [discriminate Hl|]. injection Hl as Hl. rewrite app_length in Hl.
      destruct (split_app qs _ _ Hl) as (c1 & c2 & -> & L1 & L2).
      destruct (fill_split starts c1 c2 L1) as (l' & E & S1 & S2).
      destruct (fill_split0 stops c2 L2) as (m' & E' & S1' & S2').
      simpl. rewrite E. simpl. rewrite E'. simpl. rb; [apply (H1 0); reflexivity|].
      rb; [|rb; [|rr]].
      * apply ref_omapM; auto. rewrite S1. intros k u w Hu Hw.
        rb; [|rr]. apply (H1 (S k)); simpl; rewrite nth_error_app1; auto; apply nth_error_Some; congruence.
      * apply ref_omapM; auto. rewrite S1'. intros k u w Hu Hw.
        rb; [|rr]. apply (H1 (S (length c1 + k))); simpl; rewrite nth_error_app2 by lia.
        -- rewrite L1. replace (length (somes starts) + k - length (somes starts)) with k by lia. auto.
        -- replace (length c1 + k - length c1) with k by lia. auto.
    + destruct cs as [|q qs]; [discriminate Hl|]. injection Hl as Hl. rewrite app_length in Hl.
      destruct (split_app qs _ _ Hl) as (c1 & c2 & -> & L1 & L2).
      destruct (fill_split lefts c1 c2 L1) as (l' & E & S1 & S2).
      destruct (fill_split0 rights c2 L2) as (m' & E' & S1' & S2').
      simpl. rewrite E. simpl. rewrite E'. simpl. rb; [apply (H1 0); reflexivity|].
      rb; [|rb; [|rr]].
      * apply ref_omapM; auto. rewrite S1. intros k u w Hu Hw.
        rb; [|rr]. apply (H1 (S k)); simpl; rewrite nth_error_app1; auto; apply nth_error_Some; congruence.
      * apply ref_omapM; auto. rewrite S1'. intros k u w Hu Hw.
        rb; [|rr]. apply (H1 (S (length c1 + k))); simpl; rewrite nth_error_app2 by lia.
        -- rewrite L1. replace (length (somes lefts) + k - length (somes lefts)) with k by lia. auto.
        -- replace (length c1 + k - length c1) with k by lia. auto.
    + ychildren cs Hl. simpl. rb; [apply (H1 1); reflexivity|]. rb; [apply (H1 0); reflexivity|]. rr.
    + ychildren cs Hl. simpl. rb; [apply (H1 0); reflexivity|]. rr.
    + ychildren cs Hl. simpl. rb; [apply (H1 0); reflexivity|]. rr.
    + ychildren cs Hl. simpl. rb; [apply (H1 0); reflexivity|]. rr.
    + ychildren cs Hl. simpl. rb; [apply (H1 0); reflexivity|]. rb; [apply (H1 1); reflexivity|]. rr.
    + ychildren cs Hl. simpl. rb; [apply (H1 0); reflexivity|]. rb; [apply (H1 1); reflexivity|].
      rb; [apply (H1 2); reflexivity|]. rr.
    + ychildren cs Hl. simpl. rb; [apply (H0 1); reflexivity|]. rb; [apply (H0 0); reflexivity|].
      rb; [apply ref_refl|]. rb; [apply ref_refl|]. apply ref_iter. intros k v.
      apply (H 2 t3 q1 [SV acc; SV c] [(SV acc, v); (SV c, YA (ascalar (SI (Z.of_nat k))))]); reflexivity.
    + ychildren cs Hl. simpl. rb; [apply (H0 0); reflexivity|]. rb; [apply (H0 2); reflexivity|].
      apply ref_reduce. intros u w.
      apply (H 1 t2 q0 [SV x; SV y] [(SV x, u); (SV y, w)]); reflexivity.
    + simpl. rb; [exact HM|]. rr.
    + ychildren cs Hl. simpl. rb; [apply (H1 0); reflexivity|]. rr.
    + simpl. rb; [exact HM|]. rr.
    + simpl. rb; [exact HM|]. rr.
Qed.

End YTerm.
