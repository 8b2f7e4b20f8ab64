(** ein/frontend/layout.py and the packing/unpacking of records in
    ein/frontend/ndarray.py:46-82, 401-407. *)
From Verif Require Import Base Scalar Tensor Types Sym Phi Den.

Section Layout.
Context {FO : FloatOps} {EX : Externs}.

(** Names that are attributes of Python's dict class (keys, items, get, ...). *)
Variable dict_attr : nat -> bool.

(** layout.py:12-70.  A name and a dataclass are numbers. *)
Inductive layout : Type :=
| LAtom
| LVec (sub : layout)
| LPos (subs : list layout)
| LLab (subs : list (nat * layout)) (tag : option nat).

(** Python objects that make up a structure: a [Scalar]/[Vec] with its
    expression and layout, a raw number or numpy array, containers. *)
Inductive obj : Type :=
| OArr (e : phi) (l : layout)
| ORaw (a : arr)
| OTup (l : list obj)
| OList (l : list obj)
| ODict (l : list (nat * obj))
| OData (tag : nat) (l : list (nat * obj)).

Section Ind.
Variable P : obj -> Prop.
Hypothesis HA : forall e l, P (OArr e l).
Hypothesis HR : forall a, P (ORaw a).
Hypothesis HT : forall l, Forall P l -> P (OTup l).
Hypothesis HL : forall l, Forall P l -> P (OList l).
Hypothesis HD : forall l, Forall (fun p => P (snd p)) l -> P (ODict l).
Hypothesis HC : forall t l, Forall (fun p => P (snd p)) l -> P (OData t l).
Fixpoint obj_ind' (o : obj) : P o :=
  let fix all l : Forall P l :=
    match l with [] => Forall_nil _ | x :: l => Forall_cons x (obj_ind' x) (all l) end in
  let fix alls l : Forall (fun p => P (snd p)) l :=
    match l with [] => Forall_nil _ | x :: l => Forall_cons x (obj_ind' (snd x)) (alls l) end in
  match o with
  | OArr e l => HA e l
  | ORaw a => HR a
  | OTup l => HT l (all l)
  | OList l => HL l (all l)
  | ODict l => HD l (alls l)
  | OData t l => HC t l (alls l)
  end.
End Ind.

(** layout.py:157-167 *)
Fixpoint unambiguous_layout (t : ty) : res layout :=
  match t with
  | TScalar _ => Ok LAtom
  | TVec e => let* l := unambiguous_layout e in Ok (LVec l)
  | TPair _ _ => Err EValue
  end.

(** ndarray.py:401-407 *)
Definition wrap (o : obj) : res (phi * layout) :=
  match o with
  | OArr e l => Ok (e, l)
  | ORaw a =>
      let* l := unambiguous_layout (ndarray_type (length (ashape a)) (akind a)) in
      Ok (PConst a, l)
  | _ => Err EType
  end.

(** layout.py:73-89, with [f = lambda a: wrap(a).layout] *)
Fixpoint build_layout (o : obj) : res layout :=
  match o with
  | OTup l | OList l =>
      let* _ := guard (negb (length l =? 0)) EValue in
      let* subs := mapM build_layout l in Ok (LPos subs)
  | ODict l =>
      let* _ := guard (negb (length l =? 0)) EValue in
      let* subs := mapM (fun p => let* s := build_layout (snd p) in Ok (fst p, s)) l in
      Ok (LLab subs None)
  | OData t l =>
      let* subs := mapM (fun p => let* s := build_layout (snd p) in Ok (fst p, s)) l in
      Ok (LLab subs (Some t))
  | _ => let* w := wrap o in Ok (snd w)
  end.

Fixpoint lookup {A} (n : nat) (l : list (nat * A)) : res A :=
  match l with
  | [] => Err EUnbound
  | (m, x) :: l => if n =? m then Ok x else lookup n l
  end.

(** layout.py:93-101: attribute first, then item. *)
Definition get_name (n : nat) (o : obj) : res obj :=
  match o with
  | ODict l => if dict_attr n then Err EType else lookup n l
  | OData _ l => lookup n l
  | _ => Err EType
  end.

(** layout.py:103-104 with [merge = phi.Cons] *)
Fixpoint reduce_cons (es : list phi) : res phi :=
  match es with
  | [] => Err EValue
  | [e] => Ok e
  | e :: es => let* r := reduce_cons es in Ok (PCons e r)
  end.

(** layout.py:92-126 with one argument, as used by
    ndarray.py:52-59 [_layout_struct_to_expr]. *)
Fixpoint struct_to_expr (l : layout) (o : obj) : res phi :=
  match l with
  | LAtom => let* w := wrap o in Ok (fst w)
  | LVec _ => match o with OArr e _ => Ok e | _ => Err EType end
  | LPos subs =>
      match o with
      | OTup os | OList os =>
          let* es := (fix go ls os := match ls, os with
                      | [], [] => Ok []
                      | l :: ls, o :: os => let* e := struct_to_expr l o in
                                            let* es := go ls os in Ok (e :: es)
                      | _, _ => Err EValue
                      end) subs os in
          reduce_cons es
      | _ => Err EType
      end
  | LLab subs _ =>
      let* es := mapM (fun p => let* x := get_name (fst p) o in struct_to_expr (snd p) x) subs in
      reduce_cons es
  end.

(** ndarray.py:46-49 *)
Definition project_tuple (e : phi) (i n : nat) : phi :=
  let e' := Nat.iter i PSecond e in
  if i + 1 <? n then PFirst e' else e'.

(** ndarray.py:62-82.  Calling a dataclass on its fields gives back an instance
    with these fields. *)
Fixpoint to_array (e : phi) (l : layout) : obj :=
  match l with
  | LAtom => OArr e LAtom
  | LVec s => OArr e (LVec s)
  | LPos subs =>
      OTup ((fix go i ls := match ls with
             | [] => []
             | l :: ls => to_array (project_tuple e i (length subs)) l :: go (S i) ls
             end) 0 subs)
  | LLab subs tag =>
      let kw := (fix go i ls := match ls with
             | [] => []
             | (n, l) :: ls => (n, to_array (project_tuple e i (length subs)) l) :: go (S i) ls
             end) 0 subs in
      match tag with None => ODict kw | Some t => OData t kw end
  end.

(** layout.py:15-70 *)
Fixpoint lmatch (l : layout) (t : ty) : bool :=
  match l with
  | LAtom => match t with TScalar _ => true | _ => false end
  | LVec _ => match t with TVec _ => true | _ => false end
  | LPos subs =>
      (fix go ls t := match ls with
       | [] => false
       | [l] => lmatch l t
       | l :: ls => match t with TPair a b => lmatch l a && go ls b | _ => false end
       end) subs t
  | LLab subs _ =>
      (fix go ls t := match ls with
       | [] => false
       | [(_, l)] => lmatch l t
       | (_, l) :: ls => match t with TPair a b => lmatch l a && go ls b | _ => false end
       end) subs t
  end.

(** * Specification *)

(** Structures that can be packed: containers are not empty, names are
    distinct and (in dictionaries) not attributes of dict, leaves are ein
    arrays or plain numbers. *)
Fixpoint obj_ok (o : obj) : Prop :=
  match o with
  | OArr _ LAtom | OArr _ (LVec _) => True
  | OArr _ _ => False
  | ORaw a => ashape a = []
  | OTup l | OList l => l <> [] /\ fold_right and True (map obj_ok l)
  | ODict l => l <> [] /\ NoDup (map fst l) /\ Forall (fun n => dict_attr n = false) (map fst l) /\
               fold_right and True (map (fun p => obj_ok (snd p)) l)
  | OData _ l => l <> [] /\ NoDup (map fst l) /\ fold_right and True (map (fun p => obj_ok (snd p)) l)
  end.

(** The leaf expressions, in order. *)
Fixpoint obj_leaves (o : obj) : list phi :=
  match o with
  | OArr e _ => [e]
  | ORaw a => [PConst a]
  | OTup l | OList l => flat_map obj_leaves l
  | ODict l | OData _ l => flat_map (fun p => obj_leaves (snd p)) l
  end.

(** Same shape (lists become tuples), corresponding leaves have the same value
    in [E] and the same layout. *)
Fixpoint same_obj (E : env) (o o' : obj) : Prop :=
  let fix sames l l' := match l, l' with
    | [], [] => True
    | x :: l, y :: l' => same_obj E x y /\ sames l l'
    | _, _ => False
    end in
  let fix samef l l' := match l, l' with
    | [], [] => True
    | (n, x) :: l, (m, y) :: l' => n = m /\ same_obj E x y /\ samef l l'
    | _, _ => False
    end in
  match o, o' with
  | OArr e l, OArr e' l' => l = l' /\ den E e' = den E e
  | ORaw a, OArr e' l' => l' = LAtom /\ den E e' = Ok (VArr a)
  | OTup l, OTup l' | OList l, OTup l' => sames l l'
  | ODict l, ODict l' => samef l l'
  | OData t l, OData t' l' => t = t' /\ samef l l'
  | _, _ => False
  end.

Definition defined (E : env) (e : phi) : Prop := exists v, den E e = Ok v.

(** * Projections (C25) *)
Fixpoint nest (vs : list val) : option val :=
  match vs with
  | [] => None
  | [v] => Some v
  | v :: vs => match nest vs with Some w => Some (VPair v w) | None => None end
  end.

Lemma nest_some vs : vs <> [] -> exists v, nest vs = Some v.
Proof.
  induction vs as [|v vs IH]; [congruence|]. intros _. simpl. destruct vs as [|w vs]; [eauto|].
  destruct IH as [u ->]; [discriminate|]. eauto.
Qed.

Lemma reduce_cons_some es : es <> [] -> exists e, reduce_cons es = Ok e.
Proof.
  induction es as [|v es IH]; [congruence|]. intros _. simpl. destruct es as [|w es]; [eauto|].
  destruct IH as [u Hu]; [discriminate|]. rewrite Hu. simpl. eauto.
Qed.

Lemma reduce_cons_den E es : forall vs e, Forall2 (fun e v => den E e = Ok v) es vs ->
  reduce_cons es = Ok e -> exists v, nest vs = Some v /\ den E e = Ok v.
Proof.
  induction es as [|x es IH]; intros vs e F H; [discriminate|].
  inversion F as [|? v ? vs' Hv F']; subst. simpl in H. destruct es as [|y es].
  - inversion F'; subst. injection H as <-. exists v. auto.
  - apply bind_ok in H as (r & Hr & H). injection H as <-.
    destruct (IH vs' r F' Hr) as (w & Hw & Dw). exists (VPair v w).
    inversion F'; subst. cbn [nest] in *. rewrite Hw. split; auto.
    cbn [den]. rewrite Hv, Dw. reflexivity.
Qed.

Lemma iter_second E vs : forall i e v, i < length vs -> nest vs = Some v -> den E e = Ok v ->
  exists w, den E (Nat.iter i PSecond e) = Ok w /\ nest (skipn i vs) = Some w.
Proof.
  intros i. induction i as [|i IH]; intros e v Hi Hn Hd.
  - exists v. auto.
  - destruct (IH e v) as (w & W1 & W2); auto; [lia|].
    simpl Nat.iter. cbn [den]. rewrite W1. cbn [bind].
    assert (exists x r, skipn i vs = x :: r /\ r = skipn (S i) vs) as (x & r & Es & Er).
    { clear - Hi. revert vs Hi. induction i as [|i IH]; intros [|x vs] Hi; simpl in *; try lia; eauto.
      apply IH. lia. }
    rewrite Es in W2. rewrite <- Er.
    assert (r <> []). { rewrite Er. intros Q. apply (f_equal (@length val)) in Q. rewrite skipn_length in Q. simpl in Q. lia. }
    destruct r as [|y r]; [congruence|]. simpl in W2.
    destruct (nest_some (y :: r)) as [u Hu]; [discriminate|]. simpl in Hu, W2. rewrite Hu in W2.
    injection W2 as <-. exists u. split; auto.
Qed.

Lemma project_den E vs i e v d : i < length vs -> nest vs = Some v -> den E e = Ok v ->
  den E (project_tuple e i (length vs)) = Ok (nth i vs d).
Proof.
  intros Hi Hn Hd. destruct (iter_second E vs i e v Hi Hn Hd) as (w & W1 & W2).
  unfold project_tuple.
  assert (exists r, skipn i vs = nth i vs d :: r /\ length r = length vs - S i) as (r & Es & Er).
  { clear - Hi. revert vs Hi. induction i as [|i IH]; intros [|x vs] Hi; simpl in *; try lia.
    - exists vs. split; auto. lia.
    - apply IH. lia. }
  rewrite Es in W2. destruct (Nat.ltb_spec (i + 1) (length vs)) as [L|L].
  - destruct r as [|y r]; [simpl in Er; lia|]. simpl in W2.
    destruct (nest_some (y :: r)) as [u Hu]; [discriminate|]. simpl in Hu. rewrite Hu in W2.
    injection W2 as <-. cbn [den]. rewrite W1. reflexivity.
  - destruct r as [|y r]; [|simpl in Er; lia]. simpl in W2. injection W2 as <-. exact W1.
Qed.

(** * Round trip (C24) *)
Definition s2e_pos := (fix go ls os := match ls, os with
                      | [], [] => Ok []
                      | l :: ls, o :: os => let* e := struct_to_expr l o in
                                            let* es := go ls os in Ok (e :: es)
                      | _, _ => Err EValue
                      end).
Definition ta_pos (e : phi) (n : nat) := (fix go i ls := match ls with
             | [] => []
             | l :: ls => to_array (project_tuple e i n) l :: go (S i) ls
             end).
Definition ta_lab (e : phi) (n : nat) := (fix go i (ls : list (nat * layout)) := match ls with
             | [] => []
             | (m, l) :: ls => (m, to_array (project_tuple e i n) l) :: go (S i) ls
             end).

Lemma ands_Forall {A} (P : A -> Prop) l : fold_right and True (map P l) <-> Forall P l.
Proof.
  induction l; simpl; split; intros H; auto.
  - constructor; tauto.
  - inversion H; subst. tauto.
Qed.

Lemma lookup_nth {A} (l : list (nat * A)) : NoDup (map fst l) ->
  forall p, In p l -> lookup (fst p) l = Ok (snd p).
Proof.
  induction l as [|[m x] l IH]; simpl; intros N p H; [tauto|]. inversion N as [|? ? Hn Hl]; subst.
  destruct H as [<-|H]; simpl; [rewrite Nat.eqb_refl; auto|].
  destruct (fst p =? m) eqn:Q.
  - apply Nat.eqb_eq in Q. exfalso. apply Hn. rewrite <- Q. apply in_map. auto.
  - apply IH; auto.
Qed.

(** Packing succeeds. *)
Lemma pack_defined (o : obj) : obj_ok o ->
  exists l e, build_layout o = Ok l /\ struct_to_expr l o = Ok e.
Proof.
  induction o as [e l|a|l IH|l IH|l IH|t l IH] using obj_ind'; intros H.
  - destruct l; simpl in H; try tauto; eexists; eexists; split; reflexivity.
  - simpl in H. exists LAtom, (PConst a). simpl. rewrite H. split; reflexivity.
  - simpl in H. rewrite ands_Forall in H. destruct H as [N H].
    assert (G : exists ls es, mapM build_layout l = Ok ls /\ s2e_pos ls l = Ok es /\ length es = length l).
    { clear N. induction l as [|o l IHl]; [exists [], []; auto|].
      inversion IH; inversion H; subst. destruct (H2 H6) as (lo & eo & B & S).
      destruct IHl as (ls & es & B' & S' & L'); auto.
      exists (lo :: ls), (eo :: es). simpl. rewrite B, B'. cbn [bind]. rewrite S. cbn [bind].
      rewrite S'. simpl. auto. }
    destruct G as (ls & es & B & S & L).
    destruct (reduce_cons_some es) as [e He]. { destruct es; [destruct l; simpl in L; congruence|discriminate]. }
    exists (LPos ls), e. simpl. destruct l as [|o l]; [congruence|]. cbn [length Nat.eqb negb guard bind].
    rewrite B. cbn [bind]. split; auto. fold s2e_pos. rewrite S. exact He.
  - simpl in H. rewrite ands_Forall in H. destruct H as [N H].
    assert (G : exists ls es, mapM build_layout l = Ok ls /\ s2e_pos ls l = Ok es /\ length es = length l).
    { clear N. induction l as [|o l IHl]; [exists [], []; auto|].
      inversion IH; inversion H; subst. destruct (H2 H6) as (lo & eo & B & S).
      destruct IHl as (ls & es & B' & S' & L'); auto.
      exists (lo :: ls), (eo :: es). simpl. rewrite B, B'. cbn [bind]. rewrite S. cbn [bind].
      rewrite S'. simpl. auto. }
    destruct G as (ls & es & B & S & L).
    destruct (reduce_cons_some es) as [e He]. { destruct es; [destruct l; simpl in L; congruence|discriminate]. }
    exists (LPos ls), e. simpl. destruct l as [|o l]; [congruence|]. cbn [length Nat.eqb negb guard bind].
    rewrite B. cbn [bind]. split; auto. fold s2e_pos. rewrite S. exact He.
  - simpl in H. rewrite ands_Forall in H. destruct H as (N & ND & NA & H).
    assert (GN : forall p, In p l -> get_name (fst p) (ODict l) = Ok (snd p)).
    { intros p Hp. simpl. rewrite Forall_forall in NA. rewrite NA by (apply in_map; auto). apply lookup_nth; auto. }
    assert (G : forall k, (forall p, In p k -> In p l) -> Forall (fun p => obj_ok (snd p)) k ->
              Forall (fun p => obj_ok (snd p) -> exists l e, build_layout (snd p) = Ok l /\ struct_to_expr l (snd p) = Ok e) k ->
              exists ls es, mapM (fun p => let* s := build_layout (snd p) in Ok (fst p, s)) k = Ok ls /\
              mapM (fun p => let* x := get_name (fst p) (ODict l) in struct_to_expr (snd p) x) ls = Ok es /\ length es = length k).
    { induction k as [|p k IHk]; intros Hin Hok Hih; [exists [], []; auto|].
      inversion Hok; inversion Hih; subst. destruct (H6 H2) as (lo & eo & B & S).
      destruct IHk as (ls & es & B' & S' & L'); auto; [intros; apply Hin; simpl; auto|].
      exists ((fst p, lo) :: ls), (eo :: es). cbn [mapM]. rewrite B. cbn [bind]. rewrite B'. cbn [bind fst snd].
      split; auto. rewrite GN by (apply Hin; simpl; auto). cbn [bind]. rewrite S. cbn [bind].
      rewrite S'. simpl. auto. }
    destruct (G l ltac:(auto) H IH) as (ls & es & B & S & L).
    destruct (reduce_cons_some es) as [e He]. { destruct es; [destruct l; simpl in L; congruence|discriminate]. }
    exists (LLab ls None), e. split; [|cbn [struct_to_expr]; rewrite S; exact He].
    cbn [build_layout]. destruct l as [|o l]; [congruence|]. cbn [length Nat.eqb negb guard bind].
    rewrite B. reflexivity.
  - simpl in H. rewrite ands_Forall in H. destruct H as (N & ND & H).
    assert (GN : forall p, In p l -> get_name (fst p) (OData t l) = Ok (snd p)).
    { intros p Hp. apply lookup_nth; auto. }
    assert (G : forall k, (forall p, In p k -> In p l) -> Forall (fun p => obj_ok (snd p)) k ->
              Forall (fun p => obj_ok (snd p) -> exists l e, build_layout (snd p) = Ok l /\ struct_to_expr l (snd p) = Ok e) k ->
              exists ls es, mapM (fun p => let* s := build_layout (snd p) in Ok (fst p, s)) k = Ok ls /\
              mapM (fun p => let* x := get_name (fst p) (OData t l) in struct_to_expr (snd p) x) ls = Ok es /\ length es = length k).
    { induction k as [|p k IHk]; intros Hin Hok Hih; [exists [], []; auto|].
      inversion Hok; inversion Hih; subst. destruct (H6 H2) as (lo & eo & B & S).
      destruct IHk as (ls & es & B' & S' & L'); auto; [intros; apply Hin; simpl; auto|].
      exists ((fst p, lo) :: ls), (eo :: es). cbn [mapM]. rewrite B. cbn [bind]. rewrite B'. cbn [bind fst snd].
      split; auto. rewrite GN by (apply Hin; simpl; auto). cbn [bind]. rewrite S. cbn [bind].
      rewrite S'. simpl. auto. }
    destruct (G l ltac:(auto) H IH) as (ls & es & B & S & L).
    destruct (reduce_cons_some es) as [e He]. { destruct es; [destruct l; simpl in L; congruence|discriminate]. }
    exists (LLab ls (Some t)), e. split; [|cbn [struct_to_expr]; rewrite S; exact He].
    cbn [build_layout]. rewrite B. reflexivity.
Qed.


Definition same_list (E : env) := fix sames l l' := match l, l' with
    | [], [] => True
    | x :: l, y :: l' => same_obj E x y /\ sames l l'
    | _, _ => False
    end.
Definition same_fields (E : env) := fix samef (l l' : list (nat * obj)) := match l, l' with
    | [], [] => True
    | (n, x) :: l, (m, y) :: l' => n = m /\ same_obj E x y /\ samef l l'
    | _, _ => False
    end.

(** Unpacking any expression with the value of the packed one. *)
Definition unpacks (E : env) (o : obj) : Prop :=
  obj_ok o -> Forall (defined E) (obj_leaves o) -> forall l e,
  build_layout o = Ok l -> struct_to_expr l o = Ok e ->
  defined E e /\
  forall e', den E e' = den E e -> same_obj E o (to_array e' l) /\ build_layout (to_array e' l) = Ok l.

Lemma unpacks_pos E l : l <> [] -> Forall (unpacks E) l -> Forall obj_ok l ->
  Forall (defined E) (flat_map obj_leaves l) -> forall ls es e,
  mapM build_layout l = Ok ls -> s2e_pos ls l = Ok es -> reduce_cons es = Ok e ->
  defined E e /\
  forall e', den E e' = den E e ->
    same_list E l (ta_pos e' (length ls) 0 ls) /\
    mapM build_layout (ta_pos e' (length ls) 0 ls) = Ok ls.
Proof.
  intros Hne IH OK DF ls es e B S R.
  assert (Hl : length l = length ls) by (apply mapM_length in B; auto).
  (* values of the components *)
  assert (G : exists vs, Forall2 (fun e v => den E e = Ok v) es vs /\ length vs = length ls).
  { clear R Hne. revert ls es B S Hl. induction l as [|o l IHl]; intros ls es B S Hl; simpl in B.
    - inv_bind. simpl in S. inv_bind. exists []. auto.
    - inv_bind. simpl in S. inv_bind. inversion IH; inversion OK; subst. simpl in DF. apply Forall_app in DF as [D1 D2].
      destruct (H1 H5 D1 _ _ Hb Hb1) as [[v Hv] _].
      destruct (IHl H2 H6 D2 _ _ Hb0 Hb2) as (vs & F & L); [simpl in Hl; lia|].
      exists (v :: vs). simpl. auto. }
  destruct G as (vs & F & Lv).
  destruct (reduce_cons_den E es vs e F R) as (v & Hn & Hv).
  split; [exists v; auto|]. intros e' He'. rewrite Hv in He'.
  assert (P : forall i, i < length ls -> den E (project_tuple e' i (length ls)) = Ok (nth i vs v)).
  { intros i Hi. rewrite <- Lv. apply project_den with (v := v); auto. lia. }
  assert (Le : length es = length ls) by (apply Forall2_len in F; lia).
  (* generalise over the offset *)
  assert (Q : forall k l ls es, Forall (unpacks E) l -> Forall obj_ok l -> Forall (defined E) (flat_map obj_leaves l) ->
     mapM build_layout l = Ok ls -> s2e_pos ls l = Ok es ->
     (forall i d, i < length ls -> den E (project_tuple e' (k + i) (length vs)) = den E (nth i es d)) ->
     same_list E l (ta_pos e' (length vs) k ls) /\ mapM build_layout (ta_pos e' (length vs) k ls) = Ok ls).
  { clear. intros k l. revert k. induction l as [|o l IHl]; intros k ls es IH OK DF B S HP; simpl in B.
    - inv_bind. simpl. auto.
    - inv_bind. simpl in S. inv_bind. inversion IH; inversion OK; subst. simpl in DF. apply Forall_app in DF as [D1 D2].
      destruct (H1 H5 D1 _ _ Hb Hb1) as [_ U].
      destruct (U (project_tuple e' k (length vs))) as [U1 U2].
      { specialize (HP 0 e'). rewrite Nat.add_0_r in HP. apply HP. simpl. lia. }
      destruct (IHl (S k) _ _ H2 H6 D2 Hb0 Hb2) as [U3 U4].
      { intros i d Hi. specialize (HP (S i) d). rewrite <- Nat.add_succ_comm in HP. apply HP. simpl. lia. }
      cbn [ta_pos same_list mapM]. fold (ta_pos e' (length vs)). fold (same_list E).
      split; auto. rewrite U2. cbn [bind]. rewrite U4. reflexivity. }
  rewrite <- Lv. apply (Q 0 l ls es); auto. intros i d Hi. simpl. rewrite Lv, P by auto.
  symmetry. apply (Forall2_nth _ es vs i d v F). lia.
Qed.

Lemma unpacks_lab E (o : obj) (l : list (nat * obj)) : l <> [] -> Forall (fun p => unpacks E (snd p)) l ->
  Forall (fun p => obj_ok (snd p)) l -> Forall (defined E) (flat_map (fun p => obj_leaves (snd p)) l) ->
  (forall p, In p l -> get_name (fst p) o = Ok (snd p)) -> forall ls es e,
  mapM (fun p => let* s := build_layout (snd p) in Ok (fst p, s)) l = Ok ls ->
  mapM (fun p => let* x := get_name (fst p) o in struct_to_expr (snd p) x) ls = Ok es ->
  reduce_cons es = Ok e ->
  defined E e /\
  forall e', den E e' = den E e ->
    same_fields E l (ta_lab e' (length ls) 0 ls) /\
    mapM (fun p => let* s := build_layout (snd p) in Ok (fst p, s)) (ta_lab e' (length ls) 0 ls) = Ok ls /\
    length (ta_lab e' (length ls) 0 ls) = length l.
Proof.
  intros Hne IH OK DF GN ls es e B S R.
  assert (Hl : length l = length ls) by (apply mapM_length in B; auto).
  assert (G : exists vs, Forall2 (fun e v => den E e = Ok v) es vs /\ length vs = length ls).
  { clear R Hne. revert ls es B S Hl. induction l as [|[n x] l IHl]; intros ls es B S Hl; cbn [mapM fst snd] in B.
    - inv_bind. cbn [mapM] in S. inv_bind. exists []. auto.
    - inv_bind. cbn [mapM fst snd] in S. inv_bind. inversion IH; inversion OK; subst. cbn [flat_map snd] in DF. apply Forall_app in DF as [D1 D2].
      specialize (GN (n, x) (or_introl eq_refl)) as G0. cbn [fst snd] in *. rewrite G0 in Hb3. injection Hb3 as <-.
      destruct (H1 H5 D1 _ _ Hb1 Hk) as [[v Hv] _].
      destruct (IHl H2 H6 D2) with (ls := a0) (es := a2) as (vs & F & L); auto; [intros p Hp; apply GN; simpl; auto|].
      exists (v :: vs). simpl. auto. }
  destruct G as (vs & F & Lv).
  destruct (reduce_cons_den E es vs e F R) as (v & Hn & Hv).
  split; [exists v; auto|]. intros e' He'. rewrite Hv in He'.
  assert (P : forall i, i < length ls -> den E (project_tuple e' i (length ls)) = Ok (nth i vs v)).
  { intros i Hi. rewrite <- Lv. apply project_den with (v := v); auto. lia. }
  assert (Le : length es = length ls) by (apply Forall2_len in F; lia).
  assert (Q : forall k l ls es, Forall (fun p => unpacks E (snd p)) l -> Forall (fun p => obj_ok (snd p)) l ->
     Forall (defined E) (flat_map (fun p => obj_leaves (snd p)) l) ->
     (forall p, In p l -> get_name (fst p) o = Ok (snd p)) ->
     mapM (fun p => let* s := build_layout (snd p) in Ok (fst p, s)) l = Ok ls ->
     mapM (fun p => let* x := get_name (fst p) o in struct_to_expr (snd p) x) ls = Ok es ->
     (forall i d, i < length ls -> den E (project_tuple e' (k + i) (length vs)) = den E (nth i es d)) ->
     same_fields E l (ta_lab e' (length vs) k ls) /\
     mapM (fun p => let* s := build_layout (snd p) in Ok (fst p, s)) (ta_lab e' (length vs) k ls) = Ok ls /\
     length (ta_lab e' (length vs) k ls) = length l).
  { clear. intros k l. revert k. induction l as [|[n x] l IHl]; intros k ls es IH OK DF GN B S HP; cbn [mapM fst snd] in B.
    - inv_bind. simpl. auto.
    - inv_bind. cbn [mapM fst snd] in S. inv_bind. inversion IH; inversion OK; subst. cbn [flat_map snd] in DF. apply Forall_app in DF as [D1 D2].
      specialize (GN (n, x) (or_introl eq_refl)) as G0. cbn [fst snd] in *. rewrite G0 in Hb3. injection Hb3 as <-.
      destruct (H1 H5 D1 _ _ Hb1 Hk) as [_ U].
      destruct (U (project_tuple e' k (length vs))) as [U1 U2].
      { specialize (HP 0 e'). rewrite Nat.add_0_r in HP. apply HP. simpl. lia. }
      destruct (IHl (S k) a0 a2) as (U3 & U4 & U5); auto; [intros; apply GN; simpl; auto| |].
      { intros i d Hi. specialize (HP (S i) d). rewrite <- Nat.add_succ_comm in HP. apply HP. simpl. lia. }
      cbn [ta_lab same_fields mapM length fst snd]. fold (ta_lab e' (length vs)). fold (same_fields E).
      split; [auto|]. rewrite U2. cbn [bind]. rewrite U4, U5. auto. }
  rewrite <- Lv. apply (Q 0 l ls es); auto. intros i d Hi. simpl. rewrite Lv, P by auto.
  symmetry. apply (Forall2_nth _ es vs i d v F). lia.
Qed.

Lemma unpack_all E (o : obj) : unpacks E o.
Proof.
  induction o as [e l|a|l IH|l IH|l IH|t l IH] using obj_ind'; intros OK DF lo ex B S.
  - simpl in B. injection B as <-. inversion DF; subst.
    destruct l; simpl in OK; try tauto; simpl in S; injection S as <-.
    all: split; auto; intros e' He'; simpl; auto.
  - simpl in OK. simpl in B. rewrite OK in B. simpl in B. injection B as <-.
    simpl in S. rewrite OK in S. simpl in S. injection S as <-.
    split; [inversion DF; auto|]. intros e' He'. simpl. auto.
  - simpl in OK. rewrite ands_Forall in OK. destruct OK as [N OK]. simpl in DF. simpl in B. inv_bind.
    simpl in S. fold s2e_pos in S. apply bind_ok in S as (es & S & R).
    destruct (unpacks_pos E l N IH OK DF _ _ _ Hb0 S R) as [D U]. split; auto.
    intros e' He'. destruct (U e' He') as [U1 U2]. cbn [to_array]. split; [exact U1|].
    cbn [build_layout]. fold (ta_pos e' (length a0)). rewrite U2.
    replace (length (ta_pos e' (length a0) 0 a0) =? 0) with false; [reflexivity|].
    symmetry. apply Nat.eqb_neq. apply mapM_length in U2. apply mapM_length in Hb0. destruct l; [congruence|]. simpl in Hb0. lia.
  - simpl in OK. rewrite ands_Forall in OK. destruct OK as [N OK]. simpl in DF. simpl in B. inv_bind.
    simpl in S. fold s2e_pos in S. apply bind_ok in S as (es & S & R).
    destruct (unpacks_pos E l N IH OK DF _ _ _ Hb0 S R) as [D U]. split; auto.
    intros e' He'. destruct (U e' He') as [U1 U2]. cbn [to_array]. split; [exact U1|].
    cbn [build_layout]. fold (ta_pos e' (length a0)). rewrite U2.
    replace (length (ta_pos e' (length a0) 0 a0) =? 0) with false; [reflexivity|].
    symmetry. apply Nat.eqb_neq. apply mapM_length in U2. apply mapM_length in Hb0. destruct l; [congruence|]. simpl in Hb0. lia.
  - simpl in OK. rewrite ands_Forall in OK. destruct OK as (N & ND & NA & OK). cbn [obj_leaves] in DF. cbn [build_layout] in B.
    apply bind_ok in B as (u & _ & B). apply bind_ok in B as (ls & B & Q). injection Q as <-.
    cbn [struct_to_expr] in S. apply bind_ok in S as (es & S & R).
    assert (GN : forall p, In p l -> get_name (fst p) (ODict l) = Ok (snd p)).
    { intros p Hp. simpl. rewrite Forall_forall in NA. rewrite NA by (apply in_map; auto). apply lookup_nth; auto. }
    destruct (unpacks_lab E (ODict l) l N IH OK DF GN _ _ _ B S R) as [D U]. split; auto.
    intros e' He'. destruct (U e' He') as (U1 & U2 & U3). cbn [to_array]. split; [exact U1|].
    cbn [build_layout]. fold (ta_lab e' (length ls)). rewrite U2, U3. destruct l; [congruence|reflexivity].
  - simpl in OK. rewrite ands_Forall in OK. destruct OK as (N & ND & OK). cbn [obj_leaves] in DF. cbn [build_layout] in B.
    apply bind_ok in B as (ls & B & Q). injection Q as <-.
    cbn [struct_to_expr] in S. apply bind_ok in S as (es & S & R).
    assert (GN : forall p, In p l -> get_name (fst p) (OData t l) = Ok (snd p)).
    { intros p Hp. apply lookup_nth; auto. }
    destruct (unpacks_lab E (OData t l) l N IH OK DF GN _ _ _ B S R) as [D U]. split; auto.
    intros e' He'. destruct (U e' He') as (U1 & U2 & U3). cbn [to_array]. split; [split; [reflexivity|exact U1]|].
    cbn [build_layout]. fold (ta_lab e' (length ls)). rewrite U2. reflexivity.
Qed.

(** Packed expressions have a type matched by the layout. *)
Lemma lmatch_pos_eq ls t : lmatch (LPos ls) t = match ls with
  | [] => false | [l] => lmatch l t
  | l :: (_ :: _) as ls' => match t with TPair a b => lmatch l a && lmatch (LPos ls') b | _ => false end end.
Proof. destruct ls as [|l [|l' ls]]; reflexivity. Qed.

End Layout.
