(** ein/phi/phi.py and ein/term.py: Phi terms, their types and free symbols. *)
From Verif Require Export Sym.
From Verif Require Import Base Scalar Tensor Types.

Section Phi.
Context {FO : FloatOps}.

(** phi.py:24-33 and the node classes below it.  [Const] (89-110) carries an
    array: pairs of values are never embedded as constants by the frontend
    (ndarray.py:401-430 [wrap] only builds array constants).  Scalar operators
    (445-589) are grouped by arity.  An [Extrinsic]'s function is named by a
    number. *)
Inductive phi : Type :=
| PConst (a : arr)
| PStore (s : sym) (t : ty)
| PLet (x : nat) (b body : phi)
| PAssertEq (t : phi) (ops : list phi)
| PDim (t : phi) (axis : nat)
| PGet (t item : phi)
| PCons (a b : phi)
| PFirst (t : phi)
| PSecond (t : phi)
| PVec (i : nat) (size body : phi)
| PFold (c : nat) (size : phi) (acc : nat) (init body : phi)
| PReduce (init : phi) (x y : nat) (xy : phi) (vecs : list phi)
| PUn (o : uop) (a : phi)
| PBin (o : bop) (a b : phi)
| PWhere (c a b : phi)
| PConcat (a b : phi)
| PExt (t : ty) (f : nat) (ops : list phi).

(** Induction principle with hypotheses for the operand lists. *)
Section Ind.
Variable P : phi -> Prop.
Hypothesis HConst : forall a, P (PConst a).
Hypothesis HStore : forall s t, P (PStore s t).
Hypothesis HLet : forall x b body, P b -> P body -> P (PLet x b body).
Hypothesis HAssert : forall t ops, P t -> Forall P ops -> P (PAssertEq t ops).
Hypothesis HDim : forall t ax, P t -> P (PDim t ax).
Hypothesis HGet : forall t i, P t -> P i -> P (PGet t i).
Hypothesis HCons : forall a b, P a -> P b -> P (PCons a b).
Hypothesis HFirst : forall t, P t -> P (PFirst t).
Hypothesis HSecond : forall t, P t -> P (PSecond t).
Hypothesis HVec : forall i s b, P s -> P b -> P (PVec i s b).
Hypothesis HFold : forall c s acc init b, P s -> P init -> P b -> P (PFold c s acc init b).
Hypothesis HReduce : forall init x y xy vecs,
  P init -> P xy -> Forall P vecs -> P (PReduce init x y xy vecs).
Hypothesis HUn : forall o a, P a -> P (PUn o a).
Hypothesis HBin : forall o a b, P a -> P b -> P (PBin o a b).
Hypothesis HWhere : forall c a b, P c -> P a -> P b -> P (PWhere c a b).
Hypothesis HConcat : forall a b, P a -> P b -> P (PConcat a b).
Hypothesis HExt : forall t f ops, Forall P ops -> P (PExt t f ops).

Fixpoint phi_ind' (e : phi) : P e :=
  let fix all (l : list phi) : Forall P l :=
    match l with
    | [] => Forall_nil P
    | x :: xs => Forall_cons x (phi_ind' x) (all xs)
    end in
  match e with
  | PConst a => HConst a
  | PStore s t => HStore s t
  | PLet x b body => HLet x b body (phi_ind' b) (phi_ind' body)
  | PAssertEq t ops => HAssert t ops (phi_ind' t) (all ops)
  | PDim t ax => HDim t ax (phi_ind' t)
  | PGet t i => HGet t i (phi_ind' t) (phi_ind' i)
  | PCons a b => HCons a b (phi_ind' a) (phi_ind' b)
  | PFirst t => HFirst t (phi_ind' t)
  | PSecond t => HSecond t (phi_ind' t)
  | PVec i s b => HVec i s b (phi_ind' s) (phi_ind' b)
  | PFold c s acc init b => HFold c s acc init b (phi_ind' s) (phi_ind' init) (phi_ind' b)
  | PReduce init x y xy vecs =>
      HReduce init x y xy vecs (phi_ind' init) (phi_ind' xy) (all vecs)
  | PUn o a => HUn o a (phi_ind' a)
  | PBin o a b => HBin o a b (phi_ind' a) (phi_ind' b)
  | PWhere c a b => HWhere c a b (phi_ind' c) (phi_ind' a) (phi_ind' b)
  | PConcat a b => HConcat a b (phi_ind' a) (phi_ind' b)
  | PExt t f ops => HExt t f ops (all ops)
  end.
End Ind.

(** [subterms] of every node (phi.py: 101-103, 126-128, 165-167, 198-200,
    222-224, 249-251, 270-272, 291-293, 335-337, 367-369, 409-411, 454-456,
    613-615, 635-637) *)
Definition subterms (e : phi) : list phi :=
  match e with
  | PConst _ | PStore _ _ => []
  | PLet _ b body => [b; body]
  | PAssertEq t ops => t :: ops
  | PDim t _ => [t]
  | PGet t i => [t; i]
  | PCons a b => [a; b]
  | PFirst t | PSecond t => [t]
  | PVec _ s b => [s; b]
  | PFold _ s _ init b => [s; init; b]
  | PReduce init _ _ xy vecs => init :: vecs ++ [xy]
  | PUn _ a => [a]
  | PBin _ a b => [a; b]
  | PWhere c a b => [c; a; b]
  | PConcat a b => [a; b]
  | PExt _ _ ops => ops
  end.

(** [map] of every node: rebuild with [f] applied to the subterms. *)
Definition pmap (f : phi -> phi) (e : phi) : phi :=
  match e with
  | PConst _ | PStore _ _ => e
  | PLet x b body => PLet x (f b) (f body)
  | PAssertEq t ops => PAssertEq (f t) (map f ops)
  | PDim t ax => PDim (f t) ax
  | PGet t i => PGet (f t) (f i)
  | PCons a b => PCons (f a) (f b)
  | PFirst t => PFirst (f t)
  | PSecond t => PSecond (f t)
  | PVec i s b => PVec i (f s) (f b)
  | PFold c s acc init b => PFold c (f s) acc (f init) (f b)
  | PReduce init x y xy vecs => PReduce (f init) x y (f xy) (map f vecs)
  | PUn o a => PUn o (f a)
  | PBin o a b => PBin o (f a) (f b)
  | PWhere c a b => PWhere (f c) (f a) (f b)
  | PConcat a b => PConcat (f a) (f b)
  | PExt t g ops => PExt t g (map f ops)
  end.

(** [captured_symbols] (172-174, 339-341, 385-387, 431-433) *)
Definition captured (e : phi) : list sym :=
  match e with
  | PLet x _ _ => [SV x]
  | PVec i _ _ => [SX i]
  | PFold c _ acc _ _ => [SV c; SV acc]
  | PReduce _ x y _ _ => [SV x; SV y]
  | _ => []
  end.

(** [unwrap_symbol] (133-134) *)
Definition unwrap_symbol (e : phi) : list sym :=
  match e with PStore s _ => [s] | _ => [] end.

(** ein/term.py:80-83 [Term.free_symbols]: captured symbols are removed from
    the free symbols of *all* subterms (also from let-bound terms, sizes and
    initial values, which are evaluated outside the scope of the binder). *)
Fixpoint fsyms (e : phi) : list sym :=
  match e with
  | PConst _ => []
  | PStore s _ => [s]
  | PLet x b body => sremove [SV x] (fsyms b ++ fsyms body)
  | PAssertEq t ops => fsyms t ++ flat_map fsyms ops
  | PDim t _ => fsyms t
  | PGet t i => fsyms t ++ fsyms i
  | PCons a b => fsyms a ++ fsyms b
  | PFirst t | PSecond t => fsyms t
  | PVec i s b => sremove [SX i] (fsyms s ++ fsyms b)
  | PFold c s acc init b => sremove [SV c; SV acc] (fsyms s ++ fsyms init ++ fsyms b)
  | PReduce init x y xy vecs =>
      sremove [SV x; SV y] (fsyms init ++ flat_map fsyms vecs ++ fsyms xy)
  | PUn _ a => fsyms a
  | PBin _ a b => fsyms a ++ fsyms b
  | PWhere c a b => fsyms c ++ fsyms a ++ fsyms b
  | PConcat a b => fsyms a ++ fsyms b
  | PExt _ _ ops => flat_map fsyms ops
  end.

(** The generic equation of term.py:80-83. *)
Lemma fsyms_eq e :
  fsyms e = sremove (captured e) (unwrap_symbol e ++ flat_map fsyms (subterms e)).
Proof.
  destruct e; simpl; rewrite ?sremove_nil, ?app_nil_r, ?flat_map_app; simpl;
    rewrite ?app_nil_r; auto.
Qed.

(** ein/term.py:85-91 *)
Definition free_indices (e : phi) : list sym := filter is_index (fsyms e).

(** All symbols bound somewhere inside a term. *)
Fixpoint bsyms (e : phi) : list sym :=
  match e with
  | PConst _ | PStore _ _ => []
  | PLet x b body => SV x :: bsyms b ++ bsyms body
  | PAssertEq t ops => bsyms t ++ flat_map bsyms ops
  | PDim t _ => bsyms t
  | PGet t i => bsyms t ++ bsyms i
  | PCons a b => bsyms a ++ bsyms b
  | PFirst t | PSecond t => bsyms t
  | PVec i s b => SX i :: bsyms s ++ bsyms b
  | PFold c s acc init b => SV c :: SV acc :: bsyms s ++ bsyms init ++ bsyms b
  | PReduce init x y xy vecs => SV x :: SV y :: bsyms init ++ flat_map bsyms vecs ++ bsyms xy
  | PUn _ a => bsyms a
  | PBin _ a b => bsyms a ++ bsyms b
  | PWhere c a b => bsyms c ++ bsyms a ++ bsyms b
  | PConcat a b => bsyms a ++ bsyms b
  | PExt _ _ ops => flat_map bsyms ops
  end.

(** [at(index)] (647-648) and [variable(var, type)] (643-644) *)
Definition p_at (i : nat) : phi := PStore (SX i) (TScalar KInt).
Definition p_var (x : nat) (t : ty) : phi := PStore (SV x) t.
Definition p_int (z : Z) : phi := PConst (ascalar (SI z)).

(** Structural equality of terms (term.py:28-35).  Python compares cached
    hashes first and then fields; with hashes of equal things equal this is
    field-wise equality.  Constants compare by contents (value.py:51-65; see
    Value.v for the treatment of large arrays). *)
Fixpoint phi_eqb (a b : phi) {struct a} : bool :=
  let fix eqbs (l1 l2 : list phi) {struct l1} : bool :=
    match l1, l2 with
    | [], [] => true
    | x :: xs, y :: ys => phi_eqb x y && eqbs xs ys
    | _, _ => false
    end in
  match a, b with
  | PConst x, PConst y => if arr_eq_dec x y then true else false
  | PStore s t, PStore s' t' => sym_eqb s s' && ty_eqb t t'
  | PLet x b1 b2, PLet x' b1' b2' => (x =? x') && phi_eqb b1 b1' && phi_eqb b2 b2'
  | PAssertEq t ops, PAssertEq t' ops' => phi_eqb t t' && eqbs ops ops'
  | PDim t ax, PDim t' ax' => phi_eqb t t' && (ax =? ax')
  | PGet t i, PGet t' i' => phi_eqb t t' && phi_eqb i i'
  | PCons x y, PCons x' y' => phi_eqb x x' && phi_eqb y y'
  | PFirst t, PFirst t' => phi_eqb t t'
  | PSecond t, PSecond t' => phi_eqb t t'
  | PVec i s b1, PVec i' s' b1' => (i =? i') && phi_eqb s s' && phi_eqb b1 b1'
  | PFold c s ac i b1, PFold c' s' ac' i' b1' =>
      (c =? c') && phi_eqb s s' && (ac =? ac') && phi_eqb i i' && phi_eqb b1 b1'
  | PReduce i x y xy vs, PReduce i' x' y' xy' vs' =>
      phi_eqb i i' && (x =? x') && (y =? y') && phi_eqb xy xy' && eqbs vs vs'
  | PUn o x, PUn o' x' => uop_eqb o o' && phi_eqb x x'
  | PBin o x y, PBin o' x' y' => bop_eqb o o' && phi_eqb x x' && phi_eqb y y'
  | PWhere c x y, PWhere c' x' y' => phi_eqb c c' && phi_eqb x x' && phi_eqb y y'
  | PConcat x y, PConcat x' y' => phi_eqb x x' && phi_eqb y y'
  | PExt t f ops, PExt t' f' ops' => ty_eqb t t' && (f =? f') && eqbs ops ops'
  | _, _ => false
  end.

Definition phi_eqbs :=
  fix eqbs (l1 l2 : list phi) {struct l1} : bool :=
    match l1, l2 with
    | [], [] => true
    | x :: xs, y :: ys => phi_eqb x y && eqbs xs ys
    | _, _ => false
    end.

Lemma phi_eqbs_eq l1 :
  Forall (fun a => forall b, phi_eqb a b = true <-> a = b) l1 ->
  forall l2, phi_eqbs l1 l2 = true <-> l1 = l2.
Proof.
  induction 1 as [|x l1 Hx Hl IH]; destruct l2 as [|y l2]; simpl; split; intros H; try discriminate; auto.
  - apply andb_true_iff in H as [H1 H2]. apply Hx in H1. apply IH in H2. congruence.
  - injection H as <- <-. apply andb_true_iff. split; [apply Hx|apply IH]; auto.
Qed.

Lemma phi_eqb_eq a : forall b, phi_eqb a b = true <-> a = b.
Proof.
  induction a using phi_ind'; intros b'; destruct b';
    try (split; simpl; intros; discriminate);
    simpl; fold phi_eqbs;
    rewrite ?andb_true_iff, ?Nat.eqb_eq, ?sym_eqb_eq, ?ty_eqb_eq, ?uop_eqb_eq, ?bop_eqb_eq;
    repeat match goal with
    | H : forall b, phi_eqb ?x b = true <-> ?x = b |- context [phi_eqb ?x ?y] => rewrite (H y)
    | H : Forall _ ?l |- context [phi_eqbs ?l ?m] => rewrite (phi_eqbs_eq l H m)
    end.
  all: try (split; [intuition congruence | intros E; injection E; intros; subst; auto 10]).
  destruct (arr_eq_dec a a0); split; congruence.
Qed.

Lemma phi_eqb_refl a : phi_eqb a a = true.
Proof. apply phi_eqb_eq; auto. Qed.

(** Number of nodes (used as fuel). *)
Fixpoint psize (e : phi) : nat :=
  S match e with
    | PConst _ | PStore _ _ => 0
    | PLet _ b body => psize b + psize body
    | PAssertEq t ops => psize t + list_sum (map psize ops)
    | PDim t _ => psize t
    | PGet t i => psize t + psize i
    | PCons a b => psize a + psize b
    | PFirst t | PSecond t => psize t
    | PVec _ s b => psize s + psize b
    | PFold _ s _ init b => psize s + psize init + psize b
    | PReduce init _ _ xy vecs => psize init + psize xy + list_sum (map psize vecs)
    | PUn _ a => psize a
    | PBin _ a b => psize a + psize b
    | PWhere c a b => psize c + psize a + psize b
    | PConcat a b => psize a + psize b
    | PExt _ _ ops => list_sum (map psize ops)
    end.

(** The [type] property of every node.  Constructing a node evaluates its
    type ([__post_init__], phi.py:46-47), so every subterm of a term that
    exists has a type; the model threads that through explicitly.
    - Const 97-99, Store 122-124, Let 161-163, AssertEq 189-196, Dim 215-220,
      Get 239-247, Cons 266-268, First/Second 286-310, Vec 323-333,
      Fold 371-383, Reduce 413-429, scalar operators 458-466,
      Concat 601-611, Extrinsic 631-633. *)
Fixpoint typ (e : phi) : res ty :=
  match e with
  | PConst a => Ok (ndarray_type (length (ashape a)) (akind a))
  | PStore _ t => Ok t
  | PLet _ b body => let* _ := typ b in typ body
  | PAssertEq t ops =>
      let* tg := typ t in
      let* ts := mapM typ ops in
      let* _ := guard (forallb (fun t => ty_eqb t (hd (TScalar KInt) ts)) ts) EType in
      Ok tg
  | PDim t _ => let* _ := typ t in Ok (TScalar KInt)
  | PGet t i =>
      let* tg := typ t in
      let* ti := typ i in
      match tg with
      | TVec el =>
          (* 243-246: both tests only ask for a Scalar *)
          match ti with TScalar _ => Ok el | _ => Err EType end
      | _ => Err EType
      end
  | PCons a b => let* ta := typ a in let* tb := typ b in Ok (TPair ta tb)
  | PFirst t =>
      let* tg := typ t in match tg with TPair a _ => Ok a | _ => Err EType end
  | PSecond t =>
      let* tg := typ t in match tg with TPair _ b => Ok b | _ => Err EType end
  | PVec _ s b =>
      let* ts := typ s in
      let* tb := typ b in
      match ts with
      | TScalar k =>
          let* _ := guard (match free_indices s with [] => true | _ => false end) EType in
          let* _ := guard (kind_eqb k KInt) EType in
          Ok (TVec tb)
      | _ => Err EType
      end
  | PFold _ s _ init b =>
      let* ts := typ s in
      let* ti := typ init in
      let* tb := typ b in
      match ts with
      | TScalar k =>
          let* _ := guard (kind_eqb k KInt) EType in
          let* _ := guard (ty_eqb ti tb) EType in
          Ok ti
      | _ => Err EType
      end
  | PReduce init _ _ xy vecs =>
      let* ti := typ init in
      let* tx := typ xy in
      let* tvs := mapM typ vecs in
      let* _ := guard (ty_eqb ti tx) EType in
      let* es := mapM (fun t => match t with TVec el => Ok el | _ => Err EType end) tvs in
      match es with
      | [] => Err EType
      | t0 :: ts => let* _ := guard (ty_eqb (fold_left TPair ts t0) tx) EType in Ok tx
      end
  | PUn o a =>
      let* ta := typ a in
      resolve_scalar_signature [ta] (fst (sig_un o)) (snd (sig_un o))
  | PBin o a b =>
      let* ta := typ a in let* tb := typ b in
      resolve_scalar_signature [ta; tb] (fst (sig_bin o)) (snd (sig_bin o))
  | PWhere c a b =>
      let* tc := typ c in let* ta := typ a in let* tb := typ b in
      resolve_scalar_signature [tc; ta; tb] (fst sig_where) (snd sig_where)
  | PConcat a b =>
      let* ta := typ a in let* tb := typ b in
      match ta with
      | TVec _ => let* _ := guard (ty_eqb ta tb) EType in Ok ta
      | _ => Err EType
      end
  | PExt t _ ops => let* _ := mapM typ ops in Ok t
  end.

End Phi.
