(** ein/midend/structs.py:44-172 [struct_of_arrays_transform]: arrays of records
    become records of arrays. *)
From Verif Require Import Base Scalar Tensor Types Phi Den Term PhiTerm TypesFacts.

Section Soa.
Context {FO : FloatOps} {EX : Externs}.

(** structs.py:67-71 [tuple_dim].  [t] is [sub.type]; the type of [First(sub)]
    is its first component, which makes the recursion structural. *)
Fixpoint tuple_dim (t : ty) (sub : phi) (axis : nat) : list phi :=
  match t with
  | TPair a b => tuple_dim a (PFirst sub) axis ++ tuple_dim b (PSecond sub) axis
  | _ => [PDim sub axis]
  end.

(** structs.py:79-83 [tuple_get] *)
Fixpoint tuple_get (t : ty) (sub it : phi) : phi :=
  match t with
  | TPair a b => PCons (tuple_get a (PFirst sub) it) (tuple_get b (PSecond sub) it)
  | _ => PGet sub it
  end.

(** structs.py:90-98 [tuple_cat]; the assertion of line 91 compares components of
    two equal types once it holds at the root ([soa_step] checks it there). *)
Fixpoint tuple_cat (t : ty) (sub1 sub2 : phi) : phi :=
  match t with
  | TPair a b => PCons (tuple_cat a (PFirst sub1) (PFirst sub2)) (tuple_cat b (PSecond sub1) (PSecond sub2))
  | _ => PConcat sub1 sub2
  end.

(** structs.py:115-119 [in_tuple] *)
Fixpoint in_tuple (t : ty) (sub : phi) : list phi :=
  match t with
  | TPair a b => in_tuple a (PFirst sub) ++ in_tuple b (PSecond sub)
  | _ => [sub]
  end.

(** structs.py:121-122 [into_tuple]: [functools.reduce] of no arguments raises *)
Definition into_tuple (args : list phi) : res phi :=
  match args with
  | [] => Err EType
  | a :: args => Ok (fold_left PCons args a)
  end.

(** structs.py:124-135 [into_tuple_like]: [rec] takes the arguments in order; the
    ones not used yet are returned. *)
Fixpoint into_tuple_rec (t : ty) (args : list phi) : res (phi * list phi) :=
  match t with
  | TPair a b =>
      let* p := into_tuple_rec a args in
      let* q := into_tuple_rec b (snd p) in
      Ok (PCons (fst p) (fst q), snd q)
  | _ => match args with [] => Err EShape | x :: args => Ok (x, args) end
  end.
Definition into_tuple_like (t : ty) (args : list phi) : res phi :=
  let* p := into_tuple_rec t args in Ok (fst p).

(** [cast(Vector, vec.type).elem] *)
Definition vec_elem (t : ty) : res ty := match t with TVec e => Ok e | _ => Err EType end.

(** [phi] terms are constructed with a type check (phi.py:46-47). *)
Definition checked (e : phi) : res phi := let* _ := typ e in Ok e.

(** Creation of symbols: the number of the next fresh one is threaded through. *)
Fixpoint mapS {A B} (f : A -> nat -> res (B * nat)) (l : list A) (n : nat) : res (list B * nat) :=
  match l with
  | [] => Ok ([], n)
  | x :: l => let* r := f x n in let* rs := mapS f l (snd r) in Ok (fst r :: fst rs, snd rs)
  end.

(** structs.py:59-153: the body of [go]; [rec] is [go].  [functools.cache] makes
    two calls on one term share the result, which only decides whether their
    fresh symbols are the same; where a call is repeated on the spot (a
    comprehension that is not split falls through to [expr.map(go)], 153) the
    first result is used here too. *)
Definition soa_step (rec : phi -> nat -> res (phi * nat)) (e : phi) (n : nat) : res (phi * nat) :=
  match e with
  | PConst _ => Ok (e, n)
  (* 61-62 *)
  | PStore s t => Ok (PStore s (soa_ty t), n)
  (* 64-74 *)
  | PDim arr axis =>
      let* r := rec arr n in
      let* t := typ (fst r) in
      let dims := tuple_dim t (fst r) axis in
      Ok (match dims with
          | [d] => d
          | d :: ds => PAssertEq d ds
          | [] => fst r
          end, snd r)
  (* 76-85 *)
  | PGet arr it =>
      let* r := rec arr n in
      let* q := rec it (snd r) in
      let* t := typ (fst r) in
      Ok (tuple_get t (fst r) (fst q), snd q)
  (* 87-100 *)
  | PConcat a b =>
      let* r := rec a n in
      let* q := rec b (snd r) in
      let* t := typ (fst r) in
      let* t' := typ (fst q) in
      let* _ := guard (ty_eqb t t') EAssert in
      Ok (tuple_cat t (fst r) (fst q), snd q)
  (* 102-108 *)
  | PVec i size body =>
      let* r := rec size n in
      let* q := rec body (snd r) in
      let* t := typ (fst q) in
      match t with
      | TPair _ _ =>
          let i1 := snd q in
          let j1 := S (snd q) in
          let* v1 := checked (PVec i1 (fst r) (substitute (PFirst (fst q)) [(SX i, p_at i1)])) in
          let* v2 := checked (PVec j1 (fst r) (substitute (PSecond (fst q)) [(SX i, p_at j1)])) in
          let* r1 := rec v1 (S (S (snd q))) in
          let* r2 := rec v2 (snd r1) in
          Ok (PCons (fst r1) (fst r2), snd r2)
      | _ => Ok (PVec i (fst r) (fst q), snd q)
      end
  (* 110-151 *)
  | PReduce init x y xy vecs =>
      let* r := rec init n in
      let* q := rec xy (snd r) in
      let* vs := mapS rec vecs (snd q) in
      let* pre := typ (fst q) in
      let* ti := typ (fst r) in
      let* init1 := into_tuple (in_tuple ti (fst r)) in
      let* xy1 := into_tuple (in_tuple pre (fst q)) in
      let* t1 := typ init1 in
      let* t2 := typ xy1 in
      let* _ := guard (ty_eqb t1 t2) EAssert in
      let* tvs := mapM typ (fst vs) in
      let prims := concat (map (fun p => in_tuple (fst p) (snd p)) (combine tvs (fst vs))) in
      let* tps := mapM typ prims in
      let* els := mapM vec_elem tps in
      let* _ := guard (match els with [] => false | el :: els => ty_eqb t1 (fold_left TPair els el) end) EAssert in
      let x1 := snd vs in
      let y1 := S (snd vs) in
      let* xx := into_tuple_like pre (in_tuple t2 (p_var x1 t2)) in
      let* yy := into_tuple_like pre (in_tuple t2 (p_var y1 t2)) in
      let* out := checked (PReduce init1 x1 y1 (substitute xy1 [(SV x, xx); (SV y, yy)]) prims) in
      let* to := typ out in
      let* result := into_tuple_like pre (in_tuple to out) in
      Ok (result, S (S (snd vs)))
  (* 153 *)
  | PLet x b body =>
      let* r := rec b n in let* q := rec body (snd r) in Ok (PLet x (fst r) (fst q), snd q)
  | PAssertEq t ops =>
      let* r := rec t n in let* q := mapS rec ops (snd r) in Ok (PAssertEq (fst r) (fst q), snd q)
  | PCons a b =>
      let* r := rec a n in let* q := rec b (snd r) in Ok (PCons (fst r) (fst q), snd q)
  | PFirst t => let* r := rec t n in Ok (PFirst (fst r), snd r)
  | PSecond t => let* r := rec t n in Ok (PSecond (fst r), snd r)
  | PFold c s acc init b =>
      let* r := rec s n in
      let* q := rec init (snd r) in
      let* p := rec b (snd q) in
      Ok (PFold c (fst r) acc (fst q) (fst p), snd p)
  | PUn o a => let* r := rec a n in Ok (PUn o (fst r), snd r)
  | PBin o a b =>
      let* r := rec a n in let* q := rec b (snd r) in Ok (PBin o (fst r) (fst q), snd q)
  | PWhere c a b =>
      let* r := rec c n in let* q := rec a (snd r) in let* p := rec b (snd q) in
      Ok (PWhere (fst r) (fst q) (fst p), snd p)
  | PExt t f ops => let* q := mapS rec ops n in Ok (PExt t f (fst q), snd q)
  end.

(** structs.py:48-56 [validate] around [go] (the terms passed to it exist, so
    they have a type) *)
Fixpoint soa_go (fuel : nat) (e : phi) (n : nat) : res (phi * nat) :=
  match fuel with
  | 0 => Err EFuel
  | S fuel =>
      let* t := typ e in
      let* r := soa_step (soa_go fuel) e n in
      let* t' := typ (fst r) in
      let* _ := guard (ty_eqb t' (soa_ty t)) EAssert in
      Ok r
  end.

(** structs.py:155-165 [elim].  The argument of a repeated call is smaller. *)
Fixpoint elim (fuel : nat) (e : phi) : phi :=
  match fuel with
  | 0 => e
  | S fuel =>
      let e := pmap (elim fuel) e in
      match e with
      | PFirst (PCons a _) => elim fuel a
      | PSecond (PCons _ b) => elim fuel b
      | PCons (PFirst p) (PSecond p') => if phi_eqb p p' then elim fuel p else e
      | _ => e
      end
  end.

(** One more than every symbol number in a term. *)
Definition symno (s : sym) : nat := match s with SV n => n | SX n => n end.
Fixpoint syms (e : phi) : list sym :=
  match e with
  | PConst _ => []
  | PStore s _ => [s]
  | PLet x b body => SV x :: syms b ++ syms body
  | PAssertEq t ops => syms t ++ flat_map syms ops
  | PDim t _ => syms t
  | PGet t i => syms t ++ syms i
  | PCons a b => syms a ++ syms b
  | PFirst t | PSecond t => syms t
  | PVec i s b => SX i :: syms s ++ syms b
  | PFold c s acc init b => SV c :: SV acc :: syms s ++ syms init ++ syms b
  | PReduce init x y xy vecs => SV x :: SV y :: syms init ++ flat_map syms vecs ++ syms xy
  | PUn _ a => syms a
  | PBin _ a b => syms a ++ syms b
  | PWhere c a b => syms c ++ syms a ++ syms b
  | PConcat a b => syms a ++ syms b
  | PExt _ _ ops => flat_map syms ops
  end.
Definition next_sym (e : phi) : nat := S (list_max (map symno (syms e))).

(** structs.py:44-46, 167-172 *)
Definition struct_of_arrays (fuel : nat) (program : phi) : res phi :=
  let* t := typ program in
  let* r := soa_go fuel program (next_sym program) in
  let q := elim (psize (fst r)) (fst r) in
  let* t' := typ q in
  let* _ := guard (ty_eqb t t') EAssert in
  Ok q.

End Soa.
