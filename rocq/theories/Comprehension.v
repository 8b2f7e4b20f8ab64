(** The operations of the frontend that build terms from functions over
    records: ein/frontend/comprehension.py:140-176, the methods of [Vec] in
    ein/frontend/ndarray.py:104-112, 190-252, and ein/frontend/std.py:12-26. *)
From Verif Require Import Base Scalar Tensor Types Sym Phi Den Term PhiTerm DenFree SpecPhi Lining DenWf Sizes Layout.

Section Comprehension.
Context {FO : FloatOps} {EX : Externs}.
Variable dict_attr : nat -> bool.

(** phi.py:46-47: constructing a node evaluates its type. *)
Definition mk (e : phi) : res phi := let* _ := typ e in Ok e.

(** Dataclass equality of layouts (layout.py:12-70). *)
Fixpoint layout_eqb (l l' : layout) : bool :=
  match l, l' with
  | LAtom, LAtom => true
  | LVec s, LVec s' => layout_eqb s s'
  | LPos ls, LPos ls' =>
      (fix go ls ls' := match ls, ls' with
       | [], [] => true
       | l :: ls, l' :: ls' => layout_eqb l l' && go ls ls'
       | _, _ => false
       end) ls ls'
  | LLab ls t, LLab ls' t' =>
      (fix go ls ls' := match ls, ls' with
       | [], [] => true
       | (n, l) :: ls, (n', l') :: ls' => (n =? n') && layout_eqb l l' && go ls ls'
       | _, _ => false
       end) ls ls' &&
      match t, t' with None, None => true | Some a, Some b => a =? b | _, _ => false end
  | _, _ => false
  end.

(** comprehension.py:149-152: the nested comprehensions and their layout. *)
Fixpoint vecs (sizes : list (sym * phi)) (idx : list nat) (body : phi) : res phi :=
  match idx with
  | [] => Ok body
  | i :: idx =>
      let* b := vecs sizes idx body in
      match find (fun p => sym_eqb (SX i) (fst p)) sizes with
      | Some p => mk (PVec i (snd p) b)
      | None => Err EUnbound
      end
  end.

Definition wrap_all (size : option (list obj)) : res (option (list phi)) :=
  match size with
  | None => Ok None
  | Some l => let* es := mapM (fun o => let* w := wrap o in Ok (fst w)) l in Ok (Some es)
  end.

(** comprehension.py:140-153.  [idx] are the new indices; a constructor of
    another arity is a TypeError of the call. *)
Definition f_array (constructor : list obj -> res obj) (idx : list nat) (size : option (list obj)) : res obj :=
  let* made := constructor (map (fun i => OArr (p_at i) LAtom) idx) in
  let* l := build_layout made in
  let* body := struct_to_expr dict_attr l made in
  let* szs := wrap_all size in
  let* size_of := infer_sizes body (map SX idx) [] szs in
  let* e := vecs size_of idx body in
  Ok (to_array e (Nat.iter (length idx) LVec l)).

(** comprehension.py:156-175 with new variables [c] and [acc].  The layout
    compared with that of [init] is that of [init] again (line 164). *)
Definition f_fold (init : obj) (step : obj -> obj -> res obj) (count : option obj) (c acc : nat) : res obj :=
  let* l := build_layout init in
  let* init_expr := struct_to_expr dict_attr l init in
  let* t := typ init_expr in
  let* body := step (OArr (p_var c (TScalar KInt)) LAtom) (to_array (p_var acc t) l) in
  let* l' := build_layout init in
  let* _ := guard (layout_eqb l l') EValue in
  let* body_expr := struct_to_expr dict_attr l body in
  let* szs := wrap_all (match count with None => None | Some n => Some [n] end) in
  let* size_of := infer_sizes body_expr [SV c] [SV acc] szs in
  match size_of with
  | [(_, n)] => let* e := mk (PFold c n acc init_expr body_expr) in Ok (to_array e l)
  | _ => Err EUnbound
  end.

(** An index of [Vec.__getitem__] (ndarray.py:190-216): a scalar, the slice
    [:], or another slice. *)
Inductive item : Type := IAt (o : obj) | ISlice | IOther.

(** ndarray.py:190-216.  [n] numbers the indices made for slices.  Indexing
    what is not a [Vec] with a tuple of scalars and slices raises: TypeError
    for scalars, tuples and dataclasses, KeyError for dictionaries. *)
Fixpoint getitem (items : list item) (n : nat) (self : obj) : res obj :=
  match items with
  | [] => Ok self
  | it :: rest =>
      match self with
      | OArr e (LVec sub) =>
          let at_ o :=
            let* w := wrap o in
            let* q := mk (PGet e (fst w)) in
            Ok (to_array q sub) in
          match it with
          | IAt o => let* x := at_ o in getitem rest n x
          | ISlice =>
              f_array (fun args => match args with
                       | [i] => let* x := at_ i in getitem rest (S n) x
                       | _ => Err EType
                       end) [n] None
          | IOther => Err EValue
          end
      | ODict _ => Err EUnbound
      | _ => Err EType
      end
  end.

(** ndarray.py:218-220 *)
Definition vec_concat (a b : obj) : res obj :=
  match a, b with
  | OArr e (LVec s), OArr e' l' =>
      let* _ := guard (layout_eqb (LVec s) l') EAssert in
      let* q := mk (PConcat e e') in
      Ok (to_array q (LVec s))
  | _, _ => Err EType
  end.

(** ndarray.py:222-223 *)
Definition vec_size (a : obj) (axis : nat) : res obj :=
  match a with
  | OArr e (LVec s) => let* q := mk (PDim e axis) in Ok (OArr q LAtom)
  | _ => Err EType
  end.

(** ndarray.py:104-112, 148-149, 266-267 *)
Definition assume (a other : obj) : res obj :=
  match a with
  | OArr e l =>
      let* l' := build_layout other in
      let* e' := struct_to_expr dict_attr l' other in
      let* q := mk (PFirst (PCons e e')) in
      Ok (OArr q l)
  | _ => Err EType
  end.

(** ndarray.py:230-252 with new variables [x] and [y] *)
Definition vec_reduce (self init : obj) (f : obj -> obj -> res obj) (x y : nat) : res obj :=
  match self with
  | OArr e (LVec sub) =>
      let* t := typ e in
      match t with
      | TVec el =>
          let* xy_ := f (to_array (p_var x el) sub) (to_array (p_var y el) sub) in
          let* l := build_layout xy_ in
          let* _ := guard (layout_eqb sub l) EType in
          let* li := build_layout init in
          let* _ := guard (layout_eqb li l) EType in
          let* init_expr := struct_to_expr dict_attr l init in
          let* xy := struct_to_expr dict_attr l xy_ in
          let* q := mk (PReduce init_expr x y xy [e]) in
          Ok (to_array q sub)
      | _ => Err EAssert
      end
  | _ => Err EType
  end.

(** The number of comprehensions [where] makes for arrays of a layout. *)
Fixpoint lvecs (l : layout) : nat :=
  match l with
  | LAtom => 0
  | LVec s => S (lvecs s)
  | LPos ls => list_sum (map lvecs ls)
  | LLab ls _ => list_sum (map (fun p => lvecs (snd p)) ls)
  end.

(** layout.py:129-154 [map_layout], called by [where] (std.py:12-22) with
    [atom = c.where] and [vec = array(lambda i: where(cond, ts[i], fs[i]))].
    [n] numbers the new indices. *)
Fixpoint where_map (l : layout) (c : phi) (n : nat) (t f : obj) : res obj :=
  match l with
  | LAtom =>
      let* wt := wrap t in let* wf := wrap f in
      let* q := mk (PWhere c (fst wt) (fst wf)) in Ok (OArr q LAtom)
  | LVec sub =>
      f_array (fun args => match args with
        | [i] =>
            let* t' := getitem [IAt i] 0 t in
            let* f' := getitem [IAt i] 0 f in
            let* lt := build_layout t' in
            let* lf := build_layout f' in
            let* _ := guard (layout_eqb lf lt) EAssert in
            let* _ := guard (layout_eqb lf sub) EAssert in
            where_map sub c (S n) t' f'
        | _ => Err EType
        end) [n] None
  | LPos subs =>
      match t, f with
      | (OTup ts | OList ts), (OTup fs | OList fs) =>
          let* qs := (fix go n ls ts fs := match ls, ts, fs with
            | [], [], [] => Ok []
            | l :: ls, t :: ts, f :: fs =>
                let* q := where_map l c n t f in
                let* qs := go (n + lvecs l) ls ts fs in Ok (q :: qs)
            | _, _, _ => Err EValue
            end) n subs ts fs in
          Ok (OTup qs)
      | _, _ => Err EType
      end
  | LLab subs tag =>
      let* qs := (fix go n ls := match ls with
        | [] => Ok []
        | (m, l) :: ls =>
            let* t' := get_name dict_attr m t in
            let* f' := get_name dict_attr m f in
            let* q := where_map l c n t' f' in
            let* qs := go (n + lvecs l) ls in Ok ((m, q) :: qs)
        end) n subs in
      Ok (match tag with None => ODict qs | Some g => OData g qs end)
  end.

(** std.py:12-22 *)
Definition std_where (cond t f : obj) (n : nat) : res obj :=
  let* lt := build_layout t in
  let* lf := build_layout f in
  let* _ := guard (layout_eqb lf lt) EAssert in
  let* w := wrap cond in
  where_map lf (fst w) n t f.

(** * Values of structures *)

(** A structure of arrays with their values; lists and tuples are the same. *)
Inductive sval : Type :=
| SArr (v : val) (l : layout)
| STup (l : list sval)
| SDict (l : list (nat * sval))
| SData (tag : nat) (l : list (nat * sval)).

Fixpoint oden (E : env) (o : obj) : res sval :=
  match o with
  | OArr e l => let* v := den E e in Ok (SArr v l)
  | ORaw a =>
      let* l := unambiguous_layout (ndarray_type (length (ashape a)) (akind a)) in
      Ok (SArr (VArr a) l)
  | OTup l | OList l => let* vs := mapM (oden E) l in Ok (STup vs)
  | ODict l => let* vs := mapM (fun p => let* v := oden E (snd p) in Ok (fst p, v)) l in Ok (SDict vs)
  | OData t l => let* vs := mapM (fun p => let* v := oden E (snd p) in Ok (fst p, v)) l in Ok (SData t vs)
  end.

(** The structure of layout [l] held in nested pairs. *)
Fixpoint unpack (v : val) (l : layout) : res sval :=
  match l with
  | LAtom | LVec _ => Ok (SArr v l)
  | LPos subs =>
      let* vs := (fix go ls v := match ls with
        | [] => Err EValue
        | [l] => let* s := unpack v l in Ok [s]
        | l :: ls => let* p := as_pair v in let* s := unpack (fst p) l in
                     let* ss := go ls (snd p) in Ok (s :: ss)
        end) subs v in
      Ok (STup vs)
  | LLab subs tag =>
      let* vs := (fix go ls v := match ls with
        | [] => Err EValue
        | [(n, l)] => let* s := unpack v l in Ok [(n, s)]
        | (n, l) :: ls => let* p := as_pair v in let* s := unpack (fst p) l in
                     let* ss := go ls (snd p) in Ok ((n, s) :: ss)
        end) subs v in
      Ok (match tag with None => SDict vs | Some t => SData t vs end)
  end.

Definition unpack_pos := (fix go ls v := match ls with
        | [] => Err EValue
        | [l] => let* s := unpack v l in Ok [s]
        | l :: ls => let* p := as_pair v in let* s := unpack (fst p) l in
                     let* ss := go ls (snd p) in Ok (s :: ss)
        end).
Definition unpack_lab := (fix go (ls : list (nat * layout)) v := match ls with
        | [] => Err EValue
        | [(n, l)] => let* s := unpack v l in Ok [(n, s)]
        | (n, l) :: ls => let* p := as_pair v in let* s := unpack (fst p) l in
                     let* ss := go ls (snd p) in Ok ((n, s) :: ss)
        end).

Section LInd.
Variable P : layout -> Prop.
Hypothesis HA : P LAtom.
Hypothesis HV : forall l, P l -> P (LVec l).
Hypothesis HP : forall l, Forall P l -> P (LPos l).
Hypothesis HL : forall l t, Forall (fun p => P (snd p)) l -> P (LLab l t).
Fixpoint layout_ind' (l : layout) : P l :=
  match l with
  | LAtom => HA
  | LVec l => HV l (layout_ind' l)
  | LPos l => HP l ((fix all l : Forall P l :=
      match l with [] => Forall_nil _ | x :: l => Forall_cons x (layout_ind' x) (all l) end) l)
  | LLab l t => HL l t ((fix alls l : Forall (fun p => P (snd p)) l :=
      match l with [] => Forall_nil _ | x :: l => Forall_cons x (layout_ind' (snd x)) (alls l) end) l)
  end.
End LInd.

Lemma layout_eqb_eq (l : layout) : forall l', layout_eqb l l' = true <-> l = l'.
Proof.
  induction l as [|s IH|ls IH|ls t IH] using layout_ind'; intros l'; destruct l' as [|s'|ls'|ls' t']; cbn [layout_eqb];
    try (split; [discriminate|intros Q; discriminate Q]); try (split; reflexivity).
  - rewrite IH. split; congruence.
  - transitivity (ls = ls'); [|split; congruence]. revert ls'. induction IH as [|l ls Hl _ IHls]; intros [|l' ls'];
      try (split; [discriminate|intros Q; discriminate Q]); try (split; reflexivity).
    rewrite andb_true_iff, Hl, IHls. split; [intros [? ?]|]; try congruence. intros Q. injection Q; auto.
  - assert (T : match t, t' with None, None => true | Some a, Some b => a =? b | _, _ => false end = true <-> t = t').
    { destruct t, t'; try (split; [discriminate|intros Q; discriminate Q]); try (split; reflexivity).
      rewrite Nat.eqb_eq. split; congruence. }
    rewrite andb_true_iff, T. transitivity (ls = ls' /\ t = t'); [|split; [intros []|intros Q; injection Q]; intros; try split; congruence].
    assert (G : forall ls', (fix go ls ls' := match ls, ls' with
       | [], [] => true
       | (n, l) :: ls, (n', l') :: ls' => (n =? n') && layout_eqb l l' && go ls ls'
       | _, _ => false
       end) ls ls' = true <-> ls = ls'); [|rewrite G; reflexivity].
    clear ls' T. induction IH as [|[n l] ls Hl _ IHls]; intros [|[n' l'] ls'];
      try (split; [discriminate|intros Q; discriminate Q]); try (split; reflexivity).
    cbn [snd] in Hl. rewrite !andb_true_iff, Nat.eqb_eq, Hl, IHls. split; [intros [[? ?] ?]|]; try congruence.
    intros Q. injection Q; auto.
Qed.

(** Unpacking an expression gives the structure its value holds. *)
Lemma oden_to_array E (l : layout) : forall e v s,
  den E e = Ok v -> unpack v l = Ok s -> oden E (to_array e l) = Ok s.
Proof.
  induction l as [|sl IH|ls IH|ls t IH] using layout_ind'; intros e v s He Hu.
  - simpl in *. rewrite He. exact Hu.
  - simpl in *. rewrite He. exact Hu.
  - cbn [unpack] in Hu. apply bind_ok in Hu as (ss & Hu & Q). injection Q as <-. fold unpack_pos in Hu.
    cbn [to_array oden]. fold (ta_pos e (length ls)).
    enough (G : mapM (oden E) (ta_pos e (length ls) 0 ls) = Ok ss) by (rewrite G; reflexivity).
    assert (G : forall k n, n = k + length ls /\ True -> forall w, den E (Nat.iter k PSecond e) = Ok w -> forall ss, unpack_pos ls w = Ok ss ->
      mapM (oden E) (ta_pos e n k ls) = Ok ss).
    { clear Hu He v ss. induction IH as [|l ls Hl _ IHls]; intros k n Hn w Hw ss Hu; [discriminate|].
      cbn [ta_pos mapM]. destruct ls as [|l2 ls].
      - assert (Hlt : (k + 1 <? n) = false) by (apply Nat.ltb_ge; simpl in Hn; lia).
        cbn [unpack_pos] in Hu. inv_bind. unfold project_tuple. rewrite Hlt.
        rewrite (Hl _ _ _ Hw Hb). reflexivity.
      - assert (Hlt : (k + 1 <? n) = true) by (apply Nat.ltb_lt; simpl in Hn; lia).
        cbn [unpack_pos] in Hu. fold unpack_pos in Hu. inv_bind.
        unfold project_tuple at 1. rewrite Hlt.
        rewrite (Hl (PFirst (Nat.iter k PSecond e)) (fst a) a0); [|cbn [den]; rewrite Hw; cbn [bind]; rewrite Hb; reflexivity|exact Hb0].
        cbn [bind]. fold (ta_pos e n).
        rewrite (IHls (S k) n) with (w := snd a) (ss := a1); [reflexivity|simpl in *; lia| |exact Hb1].
        simpl Nat.iter. cbn [den]. rewrite Hw. cbn [bind]. rewrite Hb. reflexivity. }
    apply (G 0 (length ls)) with (w := v); auto.
  - cbn [unpack] in Hu. apply bind_ok in Hu as (ss & Hu & Q). injection Q as <-. fold unpack_lab in Hu.
    assert (G : forall k n, n = k + length ls /\ True -> forall w, den E (Nat.iter k PSecond e) = Ok w -> forall ss, unpack_lab ls w = Ok ss ->
      mapM (fun p => let* v := oden E (snd p) in Ok (fst p, v)) (ta_lab e n k ls) = Ok ss).
    { clear Hu He v ss. induction IH as [|[m l] ls Hl _ IHls]; intros k n Hn w Hw ss Hu; [discriminate|].
      cbn [ta_lab mapM fst snd] in *. destruct ls as [|[m2 l2] ls].
      - assert (Hlt : (k + 1 <? n) = false) by (apply Nat.ltb_ge; simpl in Hn; lia).
        cbn [unpack_lab] in Hu. inv_bind. unfold project_tuple. rewrite Hlt.
        rewrite (Hl _ _ _ Hw Hb). reflexivity.
      - assert (Hlt : (k + 1 <? n) = true) by (apply Nat.ltb_lt; simpl in Hn; lia).
        cbn [unpack_lab] in Hu. fold unpack_lab in Hu. inv_bind.
        unfold project_tuple at 1. rewrite Hlt.
        rewrite (Hl (PFirst (Nat.iter k PSecond e)) (fst a) a0); [|cbn [den]; rewrite Hw; cbn [bind]; rewrite Hb; reflexivity|exact Hb0].
        cbn [bind]. fold (ta_lab e n).
        rewrite (IHls (S k) n) with (w := snd a) (ss := a1); [reflexivity|simpl in *; lia| |exact Hb1].
        simpl Nat.iter. cbn [den]. rewrite Hw. cbn [bind]. rewrite Hb. reflexivity. }
    cbn [to_array]. fold (ta_lab e (length ls)).
    destruct t as [t|]; cbn [oden]; rewrite (G 0 (length ls) (conj eq_refl I) v He ss Hu); reflexivity.
Qed.

(** Packing a structure gives an expression whose value holds it. *)
Definition packs (E : env) (o : obj) : Prop :=
  obj_ok dict_attr o -> forall l e, build_layout o = Ok l -> struct_to_expr dict_attr l o = Ok e ->
  (forall v, den E e = Ok v -> exists s, oden E o = Ok s /\ unpack v l = Ok s) /\
  (forall s, oden E o = Ok s -> exists v, den E e = Ok v).

Lemma packs_pos E l : l <> [] -> Forall (packs E) l -> Forall (obj_ok dict_attr) l -> forall ls es e,
  mapM build_layout l = Ok ls -> s2e_pos dict_attr ls l = Ok es -> reduce_cons es = Ok e ->
  (forall v, den E e = Ok v -> exists ss, mapM (oden E) l = Ok ss /\ unpack_pos ls v = Ok ss) /\
  (forall ss, mapM (oden E) l = Ok ss -> exists v, den E e = Ok v).
Proof.
  intros Hne IH OK. induction l as [|o l IHl]; [congruence|]. clear Hne. intros ls es e B S R.
  cbn [mapM] in B. inv_bind. cbn [s2e_pos] in S. fold (s2e_pos dict_attr) in S. inv_bind.
  inversion IH; inversion OK; subst. destruct (H1 H5 _ _ Hb Hb1) as [U1 U2].
  destruct l as [|o2 l].
  - cbn [mapM] in *. inv_bind. cbn [s2e_pos] in Hb2. injection Hb2 as <-. cbn [reduce_cons] in R. injection R as <-. split.
    + intros v Hv. destruct (U1 v Hv) as (s & S1 & S2). exists [s]. rewrite S1. cbn [bind unpack_pos]. rewrite S2. auto.
    + intros ss Hs. inv_bind. eauto.
  - assert (E2 : a2 <> []). { cbn [mapM] in Hb0. inv_bind. cbn [s2e_pos] in Hb2. inv_bind. discriminate. }
    assert (R' : exists r, reduce_cons a2 = Ok r /\ e = PCons a1 r).
    { destruct a2 as [|x a2]; [congruence|]. cbn [reduce_cons] in R. fold reduce_cons in R. inv_bind. eauto. }
    destruct R' as (r & Hr & ->).
    destruct (IHl ltac:(discriminate) H2 H6 _ _ _ Hb0 Hb2 Hr) as [V1 V2]. split.
    + intros v Hv. cbn [den] in Hv. apply bind_ok in Hv as (v1 & D1 & Hv). apply bind_ok in Hv as (v2 & D2 & Hv). injection Hv as <-.
      destruct (U1 v1 D1) as (s & S1 & S2). destruct (V1 v2 D2) as (ss & S3 & S4).
      exists (s :: ss). cbn [mapM] in *. rewrite S1. cbn [bind]. rewrite S3. split; [reflexivity|].
      destruct a0 as [|l2 a0]; [discriminate S4|]. cbn [unpack_pos as_pair bind fst snd] in *. fold unpack_pos in *. rewrite S2. cbn [bind]. rewrite S4. reflexivity.
    + intros ss Hs. cbn [mapM] in Hs. apply bind_ok in Hs as (s & D1 & Hs). apply bind_ok in Hs as (ss' & D2 & _).
      destruct (U2 _ D1) as [v1 W1], (V2 _ D2) as [v2 W2]. exists (VPair v1 v2). cbn [den]. rewrite W1, W2. reflexivity.
Qed.

Lemma packs_lab E o (l : list (nat * obj)) : l <> [] -> Forall (fun p => packs E (snd p)) l -> Forall (fun p => obj_ok dict_attr (snd p)) l ->
  (forall p, In p l -> get_name dict_attr (fst p) o = Ok (snd p)) -> forall ls es e,
  mapM (fun p => let* s := build_layout (snd p) in Ok (fst p, s)) l = Ok ls ->
  mapM (fun p => let* x := get_name dict_attr (fst p) o in struct_to_expr dict_attr (snd p) x) ls = Ok es ->
  reduce_cons es = Ok e ->
  (forall v, den E e = Ok v -> exists ss, mapM (fun p => let* v := oden E (snd p) in Ok (fst p, v)) l = Ok ss /\ unpack_lab ls v = Ok ss) /\
  (forall ss, mapM (fun p => let* v := oden E (snd p) in Ok (fst p, v)) l = Ok ss -> exists v, den E e = Ok v).
Proof.
  intros Hne IH OK. induction l as [|[n x] l IHl]; [congruence|]. clear Hne. intros GN ls es e B S R.
  cbn [mapM fst snd] in B. inv_bind. cbn [mapM fst snd] in S. inv_bind.
  pose proof (GN (n, x) (or_introl eq_refl)) as G0. cbn [fst snd] in *. rewrite G0 in Hb3. injection Hb3 as <-.
  inversion IH; inversion OK; subst. cbn [snd] in *. destruct (H1 H5 _ _ Hb1 Hk) as [U1 U2].
  destruct l as [|[n2 x2] l].
  - cbn [mapM] in *. inv_bind. cbn [mapM] in Hb2. injection Hb2 as <-. cbn [reduce_cons] in R. injection R as <-. split.
    + intros v Hv. destruct (U1 v Hv) as (s & S1 & S2). exists [(n, s)]. cbn [fst snd]. rewrite S1. cbn [bind unpack_lab]. rewrite S2. auto.
    + intros ss Hs. inv_bind. eauto.
  - assert (E2 : a2 <> []). { cbn [mapM] in Hb0. inv_bind. cbn [mapM] in Hb2. inv_bind. discriminate. }
    assert (R' : exists r, reduce_cons a2 = Ok r /\ e = PCons a r).
    { destruct a2 as [|y a2]; [congruence|]. cbn [reduce_cons] in R. fold reduce_cons in R. inv_bind. eauto. }
    destruct R' as (r & Hr & ->).
    destruct (IHl ltac:(discriminate) H2 H6) with (ls := a0) (es := a2) (e := r) as [V1 V2]; auto; [intros p Hp; apply GN; right; auto|]. split.
    + intros v Hv. cbn [den] in Hv. apply bind_ok in Hv as (v1 & D1 & Hv). apply bind_ok in Hv as (v2 & D2 & Hv). injection Hv as <-.
      destruct (U1 v1 D1) as (s & S1 & S2). destruct (V1 v2 D2) as (ss & S3 & S4).
      exists ((n, s) :: ss). cbn [mapM fst snd] in *. rewrite S1. cbn [bind]. rewrite S3. split; [reflexivity|].
      destruct a0 as [|[n3 l2] a0]; [discriminate S4|]. cbn [unpack_lab as_pair bind fst snd] in *. fold unpack_lab in *. rewrite S2. cbn [bind]. rewrite S4. reflexivity.
    + intros ss Hs. cbn [mapM fst snd] in Hs. apply bind_ok in Hs as (s & D1 & Hs). apply bind_ok in Hs as (ss' & D2 & _).
      apply bind_ok in D1 as (s' & D1 & _). destruct (U2 _ D1) as [v1 W1], (V2 _ D2) as [v2 W2]. exists (VPair v1 v2). cbn [den]. rewrite W1, W2. reflexivity.
Qed.

Lemma pack_all E (o : obj) : packs E o.
Proof.
  induction o as [e l|a|l IH|l IH|l IH|t l IH] using obj_ind'; intros OK lo ex B S.
  - simpl in B. injection B as <-.
    destruct l; simpl in OK; try tauto; simpl in S; injection S as <-.
    all: split; [intros v Hv; simpl; rewrite Hv; simpl; eauto|intros s Hs; simpl in Hs; inv_bind; eauto].
  - simpl in OK. simpl in B. rewrite OK in B. simpl in B. injection B as <-.
    simpl in S. rewrite OK in S. simpl in S. injection S as <-.
    split; [intros v Hv; simpl in *; rewrite OK; injection Hv as <-; simpl; eauto|intros s Hs; simpl; eauto].
  - simpl in OK. rewrite ands_Forall in OK. destruct OK as [N OK]. simpl in B. inv_bind.
    simpl in S. fold (s2e_pos dict_attr) in S. apply bind_ok in S as (es & S & R).
    destruct (packs_pos E l N IH OK _ _ _ Hb0 S R) as [U1 U2]. split.
    + intros v Hv. destruct (U1 v Hv) as (ss & S1 & S2). exists (STup ss). cbn [oden unpack]. fold unpack_pos. rewrite S1, S2. auto.
    + intros s Hs. cbn [oden] in Hs. apply bind_ok in Hs as (ss & Hs & _). eauto.
  - simpl in OK. rewrite ands_Forall in OK. destruct OK as [N OK]. simpl in B. inv_bind.
    simpl in S. fold (s2e_pos dict_attr) in S. apply bind_ok in S as (es & S & R).
    destruct (packs_pos E l N IH OK _ _ _ Hb0 S R) as [U1 U2]. split.
    + intros v Hv. destruct (U1 v Hv) as (ss & S1 & S2). exists (STup ss). cbn [oden unpack]. fold unpack_pos. rewrite S1, S2. auto.
    + intros s Hs. cbn [oden] in Hs. apply bind_ok in Hs as (ss & Hs & _). eauto.
  - simpl in OK. rewrite ands_Forall in OK. destruct OK as (N & ND & NA & OK). cbn [build_layout] in B.
    apply bind_ok in B as (u & _ & B). apply bind_ok in B as (ls & B & Q). injection Q as <-.
    cbn [struct_to_expr] in S. apply bind_ok in S as (es & S & R).
    assert (GN : forall p, In p l -> get_name dict_attr (fst p) (ODict l) = Ok (snd p)).
    { intros p Hp. simpl. rewrite Forall_forall in NA. rewrite NA by (apply in_map; auto). apply lookup_nth; auto. }
    destruct (packs_lab E (ODict l) l N IH OK GN _ _ _ B S R) as [U1 U2]. split.
    + intros v Hv. destruct (U1 v Hv) as (ss & S1 & S2). exists (SDict ss). cbn [oden unpack]. fold unpack_lab. rewrite S1, S2. auto.
    + intros s Hs. cbn [oden] in Hs. apply bind_ok in Hs as (ss & Hs & _). eauto.
  - simpl in OK. rewrite ands_Forall in OK. destruct OK as (N & ND & OK). cbn [build_layout] in B.
    apply bind_ok in B as (ls & B & Q). injection Q as <-.
    cbn [struct_to_expr] in S. apply bind_ok in S as (es & S & R).
    assert (GN : forall p, In p l -> get_name dict_attr (fst p) (OData t l) = Ok (snd p)).
    { intros p Hp. apply lookup_nth; auto. }
    destruct (packs_lab E (OData t l) l N IH OK GN _ _ _ B S R) as [U1 U2]. split.
    + intros v Hv. destruct (U1 v Hv) as (ss & S1 & S2). exists (SData t ss). cbn [oden unpack]. fold unpack_lab. rewrite S1, S2. auto.
    + intros s Hs. cbn [oden] in Hs. apply bind_ok in Hs as (ss & Hs & _). eauto.
Qed.

End Comprehension.
