(** Execution of array code with buffers and with the mutable environment
    (ein/backend/array_backend.py:84-255, ein/backend/numpy_backend.py:17-172).

    Buffers live in a heap.  An array is a reference to a buffer with a view of
    it; a view shares the buffer.  What numpy decides from memory layout, and
    what a library call may or may not share with its operands, is left to two
    oracles.  NumPy scalars (results of rank 0) are treated as fresh buffers of
    rank 0. *)
From Verif Require Import Base Scalar Tensor Types Sym Phi Den NdOps Term PhiTerm Yarr YTerm.

Section Machine.
Context {FO : FloatOps} {EX : Externs} {PO : PadOps}.

Definition heap : Type := list arr.
Record href : Type := mkref { rloc : nat; rwhole : bool; rview : arr -> arr }.
Inductive hval : Type := HA (r : href) | HT (l : list href).
Definition whole (l : nat) : href := mkref l true (fun a => a).

Definition rd (h : heap) (r : href) : arr := rview r (nth (rloc r) h (ascalar (SI 0))).

(** Where the constant lives: [self.constant(value)] is the array held by the
    expression (array_backend.py:163-165). *)
Variable cl : arr -> nat.
(** Whether [preprocess_bound] copies (numpy_backend.py:21-27): depends on
    strides. *)
Variable copies : heap -> href -> bool.
(** Whether the result of an indexing, an einsum or an external function is a
    view of one of its operands. *)
Variable shares : heap -> list href -> arr -> option href.

Definition henv : Type := genv hval.
Definition mst : Type := (heap * henv)%type.
Definition M (A : Type) : Type := mst -> res (A * mst).

Definition mret {A} (a : A) : M A := fun s => Ok (a, s).
Definition mbind {A B} (m : M A) (k : A -> M B) : M B :=
  fun s => let* r := m s in k (fst r) (snd r).
Definition mlift {A} (r : res A) : M A := fun s => let* a := r in Ok (a, s).
Definition alloc (a : arr) : M href :=
  fun s => Ok (whole (length (fst s)), (fst s ++ [a], snd s)).
Definition mread (r : href) : M arr := fun s => Ok (rd (fst s) r, s).
Definition mset (x : sym) (v : hval) : M unit := fun s => Ok (tt, (fst s, upd (snd s) x v)).
Definition mdel (x : sym) : M unit := fun s =>
  match snd s x with
  | None => Err EUnbound
  | Some _ => Ok (tt, (fst s, fun y => if sym_eqb y x then None else snd s y))
  end.
Definition mget (x : sym) : M hval := fun s => let* v := of_opt EUnbound (snd s x) in Ok (v, s).

Definition mmapM {A B} (f : A -> M B) : list A -> M (list B) :=
  fix go l := match l with
  | [] => mret []
  | x :: l => mbind (f x) (fun y => mbind (go l) (fun ys => mret (y :: ys)))
  end.
Fixpoint mloop {A} (f : nat -> A -> M A) (k n : nat) (a : A) : M A :=
  match n with
  | 0 => mret a
  | S n => mbind (f k a) (mloop f (S k) n)
  end.
Definition momap {A B} (f : A -> M B) (o : option A) : M (option B) :=
  match o with Some a => mbind (f a) (fun b => mret (Some b)) | None => mret None end.

Definition ha (v : hval) : res href := match v with HA r => Ok r | HT _ => Err EType end.

(** A result in a new buffer. *)
Definition mnew (a : arr) : M hval := mbind (alloc a) (fun r => mret (HA r)).
(** A view of [r]. *)
Definition view_of (f : arr -> res arr) (r : href) : href :=
  mkref (rloc r) false (fun a => match f (rview r a) with Ok b => b | Err _ => a end).
Definition mview (f : arr -> res arr) (r : href) : M href :=
  mbind (mread r) (fun a => mbind (mlift (f a)) (fun _ => mret (view_of f r))).
(** A new buffer, or a view of an operand. *)
Definition mshare (ops : list href) (b : arr) : M hval := fun s =>
  match shares (fst s) ops b with
  | Some r => Ok (HA r, s)
  | None => mnew b s
  end.

(** numpy_backend.py:21-27 on every component (array_backend.py:172-176) *)
Definition mcopy1 (r : href) : M href := fun s =>
  if copies (fst s) r then alloc (rd (fst s) r) s else Ok (r, s).
Definition preprocess (v : hval) : M hval :=
  match v with
  | HA r => mbind (mcopy1 r) (fun r => mret (HA r))
  | HT l => mbind (mmapM mcopy1 l) (fun l => mret (HT l))
  end.

(** [call(..., out=out)]: the result must have the shape of [out] and is
    converted to its kind when that loses nothing (casting='same_kind').  A
    write through a partial view is not modelled. *)
Definition cast_into (k : kind) (c : arr) : res arr :=
  match akind c, k with
  | KBool, KBool | KInt, KInt | KFloat, KFloat => Ok c
  | _, KFloat => Ok (tab KFloat (ashape c) (fun i => to_float (get c i)))
  | KBool, KInt => Ok (tab KInt (ashape c) (fun i => match get c i with SB b => SI (Z.b2z b) | s => s end))
  | _, _ => Err EType
  end.
Definition mwrite (out : href) (c : arr) : M unit := fun s =>
  let* _ := guard (rwhole out) EValue in
  let old := rd (fst s) out in
  let* _ := guard (list_nat_eqb (ashape old) (ashape c)) EValue in
  let* c := cast_into (akind old) c in
  Ok (tt, (set_nth (rloc out) c (fst s), snd s)).

(** array_backend.py:104-155 *)
Definition hwrap (singleton : bool) (v : hval) : res (list href) :=
  match singleton, v with
  | true, HA r => Ok [r]
  | false, HT l => Ok l
  | _, _ => Err EType
  end.
Definition hunwrap (singleton : bool) (l : list href) : res hval :=
  match singleton, l with
  | true, [r] => Ok (HA r)
  | true, _ => Err EValue
  | false, _ => Ok (HT l)
  end.
(** [val[*pivot, [k]]] copies, [val[*pivot, a:b:2]] is a view. *)
Definition mpick_new (ax : nat) (f : nat -> list nat) (r : href) : M href :=
  mbind (mread r) (fun a => mbind (mlift (pick ax f a)) alloc).
Definition mpick_view (ax : nat) (f : nat -> list nat) (r : href) : M href := mview (pick ax f) r.

Fixpoint mtree (get_ : list href -> list href -> M (list href)) (ax fuel n : nat)
  (vals acc : list href) : M (list href) :=
  match fuel with
  | 0 => fun _ => Err EFuel
  | S fuel =>
      if 1 <? n then
        mbind (if Nat.odd n then
                 mbind (mmapM (mpick_new ax (fun d => [d - 1])) vals) (fun l => get_ l acc)
               else mret acc) (fun acc =>
        mbind (mmapM (mpick_view ax evens) vals) (fun p =>
        mbind (mmapM (mpick_view ax odds) vals) (fun q =>
        mbind (get_ p q) (fun vals => mtree get_ ax fuel (n / 2) vals acc))))
      else if n =? 1 then
        mbind (mmapM (mpick_new ax (fun _ => [0])) vals) (fun l => get_ l acc)
      else mret acc
  end.

Definition mreduce (x y : sym) (run : M hval) (ax : nat) (acc vals : hval) : M hval :=
  let sg := match vals with HA _ => true | HT _ => false end in
  mbind (mlift (hwrap sg vals)) (fun vs =>
  mbind (mlift (hwrap sg acc)) (fun ac =>
  mbind (mmapM (fun r => mbind (mread r) (fun a => mlift (of_opt EShape (nth_error (ashape a) ax)))) vs) (fun ns =>
  match ns with
  | [] => fun _ => Err EValue
  | n :: ns =>
      mbind (mlift (guard (forallb (Nat.eqb n) ns) EValue)) (fun _ =>
      mbind (mmapM (mview (nd_unsqueeze [ax])) ac) (fun ac =>
      let get_ x0 y0 :=
        mbind (mlift (hunwrap sg x0)) (fun a =>
        mbind (mset x a) (fun _ =>
        mbind (mlift (hunwrap sg y0)) (fun b =>
        mbind (mset y b) (fun _ =>
        mbind run (fun v => mlift (hwrap sg v)))))) in
      mbind (mtree get_ ax (S n) n vs ac) (fun ac =>
      mbind (if n =? 0 then mret tt else mbind (mdel x) (fun _ => mdel y)) (fun _ =>
      mbind (mmapM (mview (nd_squeeze [ax])) ac) (fun ac =>
      mlift (hunwrap sg ac))))))
  end))).

Definition or0 (o : option Z) : Z := match o with Some z => z | None => 0%Z end.

(** array_backend.py:157-255 and numpy_backend.py:136-172.  Operands are
    evaluated in order and read when the operation is called. *)
Fixpoint mexec (e : yarr) {struct e} : M hval :=
  let fresh1 (t : yarr) (f : arr -> res arr) :=
    mbind (mexec t) (fun v => mbind (mlift (ha v)) (fun r =>
    mbind (mread r) (fun a => mbind (mlift (f a)) mnew))) in
  let view1 (t : yarr) (f : arr -> res arr) :=
    mbind (mexec t) (fun v => mbind (mlift (ha v)) (fun r =>
    mbind (mview f r) (fun r' => mret (HA r')))) in
  let ints (l : list (option hval)) :=
    mmapM (momap (fun v => mbind (mlift (ha v)) (fun r => mbind (mread r) (fun a => mlift (as_int a))))) l in
  match e with
  | YConst a => mret (HA (whole (cl a)))
  | YVar x _ => mget (SV x)
  | YLet x b body =>
      mbind (mexec b) (fun v => mbind (preprocess v) (fun v => mbind (mset (SV x) v) (fun _ =>
      mbind (mexec body) (fun r => mbind (mdel (SV x)) (fun _ => mret r)))))
  | YDim ax t => fresh1 t (nd_dim ax)
  | YRange t => fresh1 t (fun a => let* z := as_int a in Ok (nd_range z))
  | YConcat ops ax =>
      mbind (mmapM mexec ops) (fun vs => mbind (mlift (mapM ha vs)) (fun rs =>
      mbind (mmapM mread rs) (fun l => mbind (mlift (nd_concat ax l)) mnew)))
  | YTranspose pi t => view1 t (nd_transpose pi)
  | YSqueeze axes t => view1 t (nd_squeeze axes)
  | YUnsqueeze axes t => view1 t (nd_unsqueeze axes)
  | YGather ax t i =>
      mbind (mexec t) (fun v => mbind (mexec i) (fun w =>
      mbind (mlift (ha v)) (fun r => mbind (mlift (ha w)) (fun q =>
      mbind (mread r) (fun a => mbind (mread q) (fun b =>
      mbind (mlift (nd_gather ax a b)) mnew))))))
  | YTake t items =>
      mbind (mexec t) (fun v => mbind (mmapM (momap mexec) items) (fun ws =>
      mbind (mmapM (momap (fun v => mbind (mlift (ha v)) mread)) ws) (fun l =>
      mbind (mlift (ha v)) (fun r => mbind (mread r) (fun a =>
      mbind (mlift (nd_take a l)) (mshare [r]))))))
  | YSlice t l r =>
      mbind (mexec t) (fun v => mbind (mmapM (momap mexec) l) (fun ls =>
      mbind (mmapM (momap mexec) r) (fun rs =>
      mbind (ints ls) (fun zl => mbind (ints rs) (fun zr =>
      mbind (mlift (ha v)) (fun r =>
      mbind (mview (nd_slice zl zr) r) (fun r' => mret (HA r'))))))))
  | YPad t l r =>
      mbind (mexec t) (fun v => mbind (mmapM (momap mexec) l) (fun ls =>
      mbind (mmapM (momap mexec) r) (fun rs =>
      mbind (ints ls) (fun zl => mbind (ints rs) (fun zr =>
      mbind (mlift (ha v)) (fun r => mbind (mread r) (fun a =>
      mbind (mlift (pad_call a (combine (map or0 zl) (map or0 zr)))) mnew)))))))
  | YRepeat ax c t =>
      mbind (mexec t) (fun v => mbind (mexec c) (fun w =>
      mbind (mlift (ha v)) (fun r => mbind (mlift (ha w)) (fun q =>
      mbind (mread q) (fun b => mbind (mlift (as_int b)) (fun z =>
      mbind (mread r) (fun a => mbind (mlift (nd_repeat ax z a)) mnew)))))))
  | YReduceAxis r ax t => fresh1 t (nd_reduce r ax)
  | YCast k t => fresh1 t (nd_cast k)
  | YUn o t => fresh1 t (nd_un o)
  | YBin o x y (Some 0) =>
      mbind (mexec x) (fun v => mbind (mexec y) (fun w =>
      mbind (mlift (ha v)) (fun out => mbind (mlift (ha w)) (fun q =>
      mbind (mread out) (fun a => mbind (mread q) (fun b =>
      mbind (mlift (nd_bin o a b)) (fun c => mbind (mwrite out c) (fun _ => mret (HA out)))))))))
  | YBin o x y (Some 1) =>
      mbind (mexec y) (fun w => mbind (mexec x) (fun v =>
      mbind (mlift (ha w)) (fun out => mbind (mlift (ha v)) (fun q =>
      mbind (mread out) (fun b => mbind (mread q) (fun a =>
      mbind (mlift (nd_bin o a b)) (fun c => mbind (mwrite out c) (fun _ => mret (HA out)))))))))
  | YBin o x y _ =>
      mbind (mexec x) (fun v => mbind (mexec y) (fun w =>
      mbind (mlift (ha v)) (fun r => mbind (mlift (ha w)) (fun q =>
      mbind (mread r) (fun a => mbind (mread q) (fun b =>
      mbind (mlift (nd_bin o a b)) mnew))))))
  | YWhere x y z =>
      mbind (mexec x) (fun u => mbind (mexec y) (fun v => mbind (mexec z) (fun w =>
      mbind (mlift (ha u)) (fun r => mbind (mlift (ha v)) (fun p => mbind (mlift (ha w)) (fun q =>
      mbind (mread r) (fun a => mbind (mread p) (fun b => mbind (mread q) (fun c =>
      mbind (mlift (nd_where a b c)) mnew)))))))))
  | YFold c size acc init body =>
      mbind (mexec init) (fun v0 => mbind (mexec size) (fun w =>
      mbind (mlift (ha w)) (fun q => mbind (mread q) (fun b => mbind (mlift (as_int b)) (fun z =>
      mbind (mloop (fun k a =>
               mbind (mset (SV acc) a) (fun _ =>
               mbind (mnew (ascalar (SI (Z.of_nat k)))) (fun i =>
               mbind (mset (SV c) i) (fun _ => mexec body)))) 0 (Z.to_nat z) v0) (fun v =>
      mbind (if Z.to_nat z =? 0 then mret tt else mbind (mdel (SV acc)) (fun _ => mdel (SV c))) (fun _ =>
      mret v)))))))
  | YReduce init x y xy vecs ax =>
      mbind (mexec init) (fun v0 => mbind (mexec vecs) (fun vs =>
      mreduce (SV x) (SV y) (mexec xy) ax v0 vs))
  | YTuple ops =>
      mbind (mmapM mexec ops) (fun vs => mbind (mlift (mapM ha vs)) (fun rs => mret (HT rs)))
  | YUntuple at_ _ t =>
      mbind (mexec t) (fun v =>
      match v with
      | HT l => mbind (mlift (of_opt EShape (nth_error l at_))) (fun r => mret (HA r))
      | HA _ => fun _ => Err EType
      end)
  | YEinsum s ops =>
      mbind (mmapM mexec ops) (fun vs => mbind (mlift (mapM ha vs)) (fun rs =>
      mbind (mmapM mread rs) (fun l => mbind (mlift (nd_einsum s l)) (mshare rs))))
  | YExt _ f ops =>
      mbind (mmapM mexec ops) (fun vs => mbind (mlift (mapM ha vs)) (fun rs =>
      mbind (mmapM mread rs) (fun l => mbind (mlift (ext_call f l)) (mshare rs))))
  end.

(** phi_to_yarr.py:523-560 [apply_inplace_on_temporaries]. *)
Definition is_temporary (e : yarr) : bool :=
  match e with
  | YUn _ _ | YBin _ _ _ _ | YWhere _ _ _ | YRange _ | YCast _ _ | YPad _ _ _
  | YRepeat _ _ _ | YReduceAxis _ _ _ => true
  | _ => false
  end.
Definition yrank (e : yarr) : nat :=
  match ytyp e with Ok [(r, _)] => r | _ => 0 end.
Definition mark_inplace (e : yarr) : yarr :=
  match e with
  | YBin o a b None =>
      if yrank e =? 0 then e
      else if (yrank e =? yrank a) && is_temporary a then YBin o a b (Some 0)
      else if (yrank e =? yrank b) && is_temporary b then YBin o a b (Some 1)
      else e
  | _ => e
  end.
Fixpoint apply_inplace (e : yarr) : yarr := mark_inplace (ymap apply_inplace e).

End Machine.
