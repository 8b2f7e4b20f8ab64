(** ein/codegen/yarr.py: the array language, its types, and its execution
    (ein/backend/array_backend.py:84-255, ein/backend/numpy_backend.py:17-178). *)
From Verif Require Import Base Scalar Tensor Types Sym Phi Den NdOps.

Section Yarr.
Context {FO : FloatOps}.

(** yarr.py:20-27 and the node classes.  [YBin] carries the [inplace] marker
    (yarr.py:559); an Extrinsic's function is named by a number. *)
Inductive yarr : Type :=
| YConst (a : arr)
| YVar (x : nat) (t : pty)
| YLet (x : nat) (b body : yarr)
| YDim (ax : nat) (t : yarr)
| YRange (size : yarr)
| YConcat (ops : list yarr) (ax : nat)
| YTranspose (pi : list nat) (t : yarr)
| YSqueeze (axes : list nat) (t : yarr)
| YUnsqueeze (axes : list nat) (t : yarr)
| YGather (ax : nat) (t item : yarr)
| YTake (t : yarr) (items : list (option yarr))
| YSlice (t : yarr) (starts stops : list (option yarr))
| YPad (t : yarr) (lefts rights : list (option yarr))
| YRepeat (ax : nat) (count t : yarr)
| YReduceAxis (r : rop) (ax : nat) (t : yarr)
| YCast (k : kind) (t : yarr)
| YUn (o : uop) (t : yarr)
| YBin (o : bop) (a b : yarr) (inplace : option nat)
| YWhere (c a b : yarr)
| YFold (c : nat) (size : yarr) (acc : nat) (init body : yarr)
| YReduce (init : yarr) (x y : nat) (xy vecs : yarr) (ax : nat)
| YTuple (ops : list yarr)
| YUntuple (at_ arity : nat) (t : yarr)
| YEinsum (s : esubs) (ops : list yarr)
| YExt (t : pty) (f : nat) (ops : list yarr).

Definition oall (P : yarr -> Prop) (o : option yarr) : Prop :=
  match o with Some y => P y | None => True end.

Section Ind.
Variable P : yarr -> Prop.
Hypothesis HConst : forall a, P (YConst a).
Hypothesis HVar : forall x t, P (YVar x t).
Hypothesis HLet : forall x b body, P b -> P body -> P (YLet x b body).
Hypothesis HDim : forall ax t, P t -> P (YDim ax t).
Hypothesis HRange : forall s, P s -> P (YRange s).
Hypothesis HConcat : forall ops ax, Forall P ops -> P (YConcat ops ax).
Hypothesis HTranspose : forall pi t, P t -> P (YTranspose pi t).
Hypothesis HSqueeze : forall axes t, P t -> P (YSqueeze axes t).
Hypothesis HUnsqueeze : forall axes t, P t -> P (YUnsqueeze axes t).
Hypothesis HGather : forall ax t i, P t -> P i -> P (YGather ax t i).
Hypothesis HTake : forall t items, P t -> Forall (oall P) items -> P (YTake t items).
Hypothesis HSlice : forall t l r, P t -> Forall (oall P) l -> Forall (oall P) r -> P (YSlice t l r).
Hypothesis HPad : forall t l r, P t -> Forall (oall P) l -> Forall (oall P) r -> P (YPad t l r).
Hypothesis HRepeat : forall ax c t, P c -> P t -> P (YRepeat ax c t).
Hypothesis HReduceAxis : forall r ax t, P t -> P (YReduceAxis r ax t).
Hypothesis HCast : forall k t, P t -> P (YCast k t).
Hypothesis HUn : forall o t, P t -> P (YUn o t).
Hypothesis HBin : forall o a b i, P a -> P b -> P (YBin o a b i).
Hypothesis HWhere : forall c a b, P c -> P a -> P b -> P (YWhere c a b).
Hypothesis HFold : forall c s acc init body, P s -> P init -> P body -> P (YFold c s acc init body).
Hypothesis HReduce : forall init x y xy vecs ax, P init -> P xy -> P vecs -> P (YReduce init x y xy vecs ax).
Hypothesis HTuple : forall ops, Forall P ops -> P (YTuple ops).
Hypothesis HUntuple : forall at_ n t, P t -> P (YUntuple at_ n t).
Hypothesis HEinsum : forall s ops, Forall P ops -> P (YEinsum s ops).
Hypothesis HExt : forall t f ops, Forall P ops -> P (YExt t f ops).

Fixpoint yarr_ind' (e : yarr) : P e :=
  let fix all (l : list yarr) : Forall P l :=
    match l with
    | [] => Forall_nil P
    | x :: xs => Forall_cons x (yarr_ind' x) (all xs)
    end in
  let fix oalls (l : list (option yarr)) : Forall (oall P) l :=
    match l with
    | [] => Forall_nil (oall P)
    | o :: xs =>
        @Forall_cons _ (oall P) o xs
          (match o return oall P o with Some y => yarr_ind' y | None => I end) (oalls xs)
    end in
  match e with
  | YConst a => HConst a
  | YVar x t => HVar x t
  | YLet x b body => HLet x b body (yarr_ind' b) (yarr_ind' body)
  | YDim ax t => HDim ax t (yarr_ind' t)
  | YRange s => HRange s (yarr_ind' s)
  | YConcat ops ax => HConcat ops ax (all ops)
  | YTranspose pi t => HTranspose pi t (yarr_ind' t)
  | YSqueeze axes t => HSqueeze axes t (yarr_ind' t)
  | YUnsqueeze axes t => HUnsqueeze axes t (yarr_ind' t)
  | YGather ax t i => HGather ax t i (yarr_ind' t) (yarr_ind' i)
  | YTake t items => HTake t items (yarr_ind' t) (oalls items)
  | YSlice t l r => HSlice t l r (yarr_ind' t) (oalls l) (oalls r)
  | YPad t l r => HPad t l r (yarr_ind' t) (oalls l) (oalls r)
  | YRepeat ax c t => HRepeat ax c t (yarr_ind' c) (yarr_ind' t)
  | YReduceAxis r ax t => HReduceAxis r ax t (yarr_ind' t)
  | YCast k t => HCast k t (yarr_ind' t)
  | YUn o t => HUn o t (yarr_ind' t)
  | YBin o a b i => HBin o a b i (yarr_ind' a) (yarr_ind' b)
  | YWhere c a b => HWhere c a b (yarr_ind' c) (yarr_ind' a) (yarr_ind' b)
  | YFold c s acc init body => HFold c s acc init body (yarr_ind' s) (yarr_ind' init) (yarr_ind' body)
  | YReduce init x y xy vecs ax =>
      HReduce init x y xy vecs ax (yarr_ind' init) (yarr_ind' xy) (yarr_ind' vecs)
  | YTuple ops => HTuple ops (all ops)
  | YUntuple at_ n t => HUntuple at_ n t (yarr_ind' t)
  | YEinsum s ops => HEinsum s ops (all ops)
  | YExt t f ops => HExt t f ops (all ops)
  end.
End Ind.

(** * Types *)

(** type_system.py:137-143,171-175: [with_rank_delta] upwards and downwards;
    a negative rank fails the assertion at 121-122. *)
Definition rank_up (n : nat) (p : pty) : pty := map (fun q => (fst q + n, snd q)) p.
Definition rank_down (n : nat) (p : pty) : res pty :=
  mapM (fun q => let* _ := guard (n <=? fst q) EAssert in Ok (fst q - n, snd q)) p.

Definition pat_eqb (a b : pat) : bool := (fst a =? fst b) && kind_eqb (snd a) (snd b).
Fixpoint pty_eqb (a b : pty) : bool :=
  match a, b with
  | [], [] => true
  | x :: a, y :: b => pat_eqb x y && pty_eqb a b
  | _, _ => false
  end.

(** yarr.py:509-518 [AbstractElementwise.type] *)
Definition ew_type (sg : signature * constraints) (ops : list pty) : res pty :=
  let* ps := mapM single ops in
  let* k := resolve_scalar_signature (map (fun p => TScalar (snd p)) ps) (fst sg) (snd sg) in
  match k with
  | TScalar k => Ok [(list_max (map fst ps), k)]
  | _ => Err EType
  end.

Definition omapM {A B} (f : A -> res B) (o : option A) : res (option B) :=
  match o with Some a => let* b := f a in Ok (Some b) | None => Ok None end.

(** The [type] property of every node: Const 98-100, Var 119-121, Let
    148-150, Dim 176-179, Range 197-200, Concat 219-224, Transpose 243-246,
    Squeeze 265-269, Unsqueeze 288-292, Gather 312-319, Take 344-350,
    Slice 376-380, Pad 406-410, Repeat 430-436, ReduceAxis 461-466,
    Cast 485-488, elementwise 509-518, Fold 612-618, Reduce 649-653,
    Tuple 679-681, Untuple 701-704, Einsum 723-731, Extrinsic 751-753.  A node
    evaluates its type when it is built (32-33). *)
Fixpoint ytyp (e : yarr) : res pty :=
  match e with
  | YConst a => Ok [(length (ashape a), akind a)]
  | YVar _ t => Ok t
  | YLet _ b body => let* _ := ytyp b in ytyp body
  | YDim ax t =>
      let* p := ytyp t in let* s := single p in
      let* _ := guard (ax <? fst s) EAssert in Ok [(0, KInt)]
  | YRange t =>
      let* p := ytyp t in let* s := single p in
      let* _ := guard (fst s =? 0) EAssert in Ok [(1, KInt)]
  | YConcat ops _ =>
      let* ps := mapM ytyp ops in
      let* ss := mapM single ps in
      match ss with
      | [] => Err EShape
      | s :: ss => let* _ := guard (forallb (pat_eqb s) ss) EAssert in Ok [s]
      end
  | YTranspose pi t =>
      let* p := ytyp t in let* s := single p in
      let* _ := guard (length pi =? fst s) EAssert in Ok [s]
  | YSqueeze axes t =>
      let* p := ytyp t in
      let* _ := guard (nodupb axes) EAssert in
      let* s := single p in rank_down (length axes) [s]
  | YUnsqueeze axes t =>
      let* p := ytyp t in
      let* _ := guard (nodupb axes) EAssert in
      let* s := single p in Ok (rank_up (length axes) [s])
  | YGather ax t i =>
      let* p := ytyp t in let* q := ytyp i in
      let* s := single p in let* r := single q in
      let* _ := guard (fst s =? fst r) EAssert in
      let* _ := guard (ax <? fst s) EAssert in
      let* _ := guard (kind_eqb (snd r) KInt) EAssert in Ok [s]
  | YTake t items =>
      let* p := ytyp t in let* s := single p in
      let* qs := mapM (omapM (fun y => let* q := ytyp y in single q)) items in
      let* _ := guard (length items =? fst s) EAssert in
      let* _ := guard (negb (length items =? 0)) EValue in
      let up := list_max (map (fun o => match o with Some q => fst q | None => 0 end) qs) in
      let down := length (filter (fun o => match o with Some _ => true | None => false end) qs) in
      let* _ := guard (down <=? fst s + up) EAssert in
      Ok [(fst s + up - down, snd s)]
  | YSlice t l r =>
      let* p := ytyp t in let* s := single p in
      let* _ := mapM (omapM ytyp) l in let* _ := mapM (omapM ytyp) r in
      let* _ := guard (length l =? fst s) EAssert in
      let* _ := guard (length r =? fst s) EAssert in Ok [s]
  | YPad t l r =>
      let* p := ytyp t in let* s := single p in
      let* _ := mapM (omapM ytyp) l in let* _ := mapM (omapM ytyp) r in
      let* _ := guard (length l =? fst s) EAssert in
      let* _ := guard (length r =? fst s) EAssert in Ok [s]
  | YRepeat ax c t =>
      let* q := ytyp c in let* p := ytyp t in
      let* r := single q in let* s := single p in
      let* _ := guard (fst r =? 0) EAssert in
      let* _ := guard (ax <? fst s) EAssert in Ok [s]
  | YReduceAxis _ ax t =>
      let* p := ytyp t in let* s := single p in
      let* _ := guard (ax <? fst s) EAssert in Ok [(fst s - 1, snd s)]
  | YCast k t => let* p := ytyp t in let* s := single p in Ok [(fst s, k)]
  | YUn o t => let* p := ytyp t in ew_type (sig_un o) [p]
  | YBin o a b _ => let* p := ytyp a in let* q := ytyp b in ew_type (sig_bin o) [p; q]
  | YWhere c a b =>
      let* r := ytyp c in let* p := ytyp a in let* q := ytyp b in ew_type sig_where [r; p; q]
  | YFold _ size _ init body =>
      let* q := ytyp size in let* p := ytyp init in let* p' := ytyp body in
      let* s := single q in
      let* _ := guard (fst s =? 0) EAssert in
      let* _ := guard (pty_eqb p p') EAssert in Ok p'
  | YReduce init _ _ xy vecs ax =>
      let* p := ytyp init in let* q := ytyp xy in let* r := ytyp vecs in
      let* q' := rank_down 1 q in
      let* _ := guard (pty_eqb p q') EAssert in
      let* _ := guard (forallb (fun s => ax <? fst s) r) EAssert in Ok p
  | YTuple ops =>
      let* ps := mapM ytyp ops in mapM single ps
  | YUntuple at_ n t =>
      let* p := ytyp t in
      let* _ := guard (length p =? n) EAssert in
      let* s := of_opt EShape (nth_error p at_) in Ok [s]
  | YEinsum s ops =>
      let* ps := mapM ytyp ops in
      let* ss := mapM single ps in
      let* _ := guard (forallb (fun p => length (fst p) =? fst (snd p)) (combine (fst s) ss)) EAssert in
      Ok [(length (snd s), KFloat)]
  | YExt t _ ops => let* _ := mapM ytyp ops in Ok t
  end.

(** * Execution *)

(** Run-time values: an array or a Python tuple of arrays. *)
Inductive yval : Type :=
| YA (a : arr)
| YT (l : list arr).

Definition ya (v : yval) : res arr := match v with YA a => Ok a | YT _ => Err EType end.

Definition yenv : Type := genv yval.

Class PadOps := pad_call : arr -> list (Z * Z) -> res arr.
Context {EX : Externs} {PO : PadOps}.

(** [target[*it]] with the items that are not None (numpy_backend.py:56-64).
    Only one index array is ever passed (array_indexing.py:104-106); several
    index arrays are not modelled. *)
Fixpoint the_item (p : nat) (l : list (option arr)) : option (option (nat * arr)) :=
  match l with
  | [] => Some None
  | None :: l => the_item (S p) l
  | Some a :: l =>
      match the_item (S p) l with
      | Some None => Some (Some (p, a))
      | _ => None
      end
  end.
Definition nd_take (a : arr) (items : list (option arr)) : res arr :=
  let* _ := guard (length items =? arank a) EValue in
  match the_item 0 items with
  | Some None => Ok a
  | Some (Some (p, i)) => nd_take1 p a i
  | None => Err EType
  end.

(** Positions [slice(None, -1, 2)] and [slice(1, None, 2)] of an axis of size
    [d] (array_backend.py:147). *)
Definition evens (d : nat) : list nat := filter Nat.even (seq 0 (d - 1)).
Definition odds (d : nat) : list nat := filter Nat.odd (seq 0 d).
Definition pick (ax : nat) (f : nat -> list nat) (a : arr) : res arr :=
  nd_pick ax (f (nth ax (ashape a) 0)) a.

(** array_backend.py:143-152, [n] the number of elements left; [get] runs the
    combining expression. *)
Fixpoint tree_loop (get_ : list arr -> list arr -> res (list arr)) (ax fuel n : nat)
  (vals acc : list arr) : res (list arr) :=
  match fuel with
  | 0 => Err EFuel
  | S fuel =>
      if 1 <? n then
        let* acc := (if Nat.odd n then
                       let* l := mapM (pick ax (fun d => [d - 1])) vals in get_ l acc
                     else Ok acc) in
        let* p := mapM (pick ax evens) vals in
        let* q := mapM (pick ax odds) vals in
        let* vals := get_ p q in
        tree_loop get_ ax fuel (n / 2) vals acc
      else if n =? 1 then
        let* l := mapM (pick ax (fun _ => [0])) vals in get_ l acc
      else Ok acc
  end.

(** array_backend.py:104-155 [reduce]; [run] evaluates [xy] with [x] and [y]
    bound. *)
Definition wrap_vals (singleton : bool) (v : yval) : res (list arr) :=
  match singleton, v with
  | true, YA a => Ok [a]
  | false, YT l => Ok l
  | _, _ => Err EType
  end.
Definition unwrap_vals (singleton : bool) (l : list arr) : res yval :=
  match singleton, l with
  | true, [a] => Ok (YA a)
  | true, _ => Err EValue
  | false, _ => Ok (YT l)
  end.

Definition reduce_call (run : yval -> yval -> res yval) (ax : nat) (acc vals : yval) : res yval :=
  let sg := match vals with YA _ => true | YT _ => false end in
  let* vs := wrap_vals sg vals in
  let* ac := wrap_vals sg acc in
  let* ns := mapM (fun v => of_opt EShape (nth_error (ashape v) ax)) vs in
  match ns with
  | [] => Err EValue
  | n :: ns =>
      let* _ := guard (forallb (Nat.eqb n) ns) EValue in
      let* ac := mapM (nd_unsqueeze [ax]) ac in
      let get_ x0 y0 :=
        let* x := unwrap_vals sg x0 in
        let* y := unwrap_vals sg y0 in
        let* v := run x y in wrap_vals sg v in
      let* ac := tree_loop get_ ax (S n) n vs ac in
      let* ac := mapM (nd_squeeze [ax]) ac in
      unwrap_vals sg ac
  end.

(** array_backend.py:157-255 and numpy_backend.py:136-172.  The environment is
    persistent here; the version with the mutable environment is [yexec]. *)
Fixpoint yeval (R : yenv) (e : yarr) {struct e} : res yval :=
  match e with
  | YConst a => Ok (YA a)
  | YVar x _ => of_opt EUnbound (R (SV x))
  | YLet x b body => let* v := yeval R b in yeval (upd R (SV x) v) body
  | YDim ax t => let* v := yeval R t in let* a := ya v in let* b := nd_dim ax a in Ok (YA b)
  | YRange s =>
      let* v := yeval R s in let* a := ya v in let* z := as_int a in Ok (YA (nd_range z))
  | YConcat ops ax =>
      let* vs := mapM (yeval R) ops in let* l := mapM ya vs in
      let* b := nd_concat ax l in Ok (YA b)
  | YTranspose pi t =>
      let* v := yeval R t in let* a := ya v in let* b := nd_transpose pi a in Ok (YA b)
  | YSqueeze axes t =>
      let* v := yeval R t in let* a := ya v in let* b := nd_squeeze axes a in Ok (YA b)
  | YUnsqueeze axes t =>
      let* v := yeval R t in let* a := ya v in let* b := nd_unsqueeze axes a in Ok (YA b)
  | YGather ax t i =>
      let* v := yeval R t in let* w := yeval R i in
      let* a := ya v in let* b := ya w in
      let* c := nd_gather ax a b in Ok (YA c)
  | YTake t items =>
      let* v := yeval R t in
      let* ws := mapM (omapM (fun y => let* w := yeval R y in ya w)) items in
      let* a := ya v in
      let* c := nd_take a ws in Ok (YA c)
  | YSlice t l r =>
      let* v := yeval R t in
      let* ls := mapM (omapM (fun y => let* w := yeval R y in let* a := ya w in as_int a)) l in
      let* rs := mapM (omapM (fun y => let* w := yeval R y in let* a := ya w in as_int a)) r in
      let* a := ya v in
      let* c := nd_slice ls rs a in Ok (YA c)
  | YPad t l r =>
      let* v := yeval R t in
      let* ls := mapM (omapM (fun y => let* w := yeval R y in let* a := ya w in as_int a)) l in
      let* rs := mapM (omapM (fun y => let* w := yeval R y in let* a := ya w in as_int a)) r in
      let* a := ya v in
      let or0 := fun o => match o with Some z => z | None => 0%Z end in
      let* c := pad_call a (combine (map or0 ls) (map or0 rs)) in Ok (YA c)
  | YRepeat ax c t =>
      let* v := yeval R t in let* w := yeval R c in
      let* a := ya v in let* b := ya w in let* z := as_int b in
      let* c := nd_repeat ax z a in Ok (YA c)
  | YReduceAxis r ax t =>
      let* v := yeval R t in let* a := ya v in let* b := nd_reduce r ax a in Ok (YA b)
  | YCast k t => let* v := yeval R t in let* a := ya v in let* b := nd_cast k a in Ok (YA b)
  | YUn o t => let* v := yeval R t in let* a := ya v in let* b := nd_un o a in Ok (YA b)
  | YBin o x y _ =>
      let* v := yeval R x in let* w := yeval R y in
      let* a := ya v in let* b := ya w in
      let* c := nd_bin o a b in Ok (YA c)
  | YWhere x y z =>
      let* u := yeval R x in let* v := yeval R y in let* w := yeval R z in
      let* a := ya u in let* b := ya v in let* c := ya w in
      let* d := nd_where a b c in Ok (YA d)
  | YFold c size acc init body =>
      let* v0 := yeval R init in
      let* w := yeval R size in let* b := ya w in let* z := as_int b in
      iter_res (fun k v => yeval (upd (upd R (SV acc) v) (SV c) (YA (ascalar (SI (Z.of_nat k))))) body)
               0 (Z.to_nat z) v0
  | YReduce init x y xy vecs ax =>
      let* v0 := yeval R init in
      let* vs := yeval R vecs in
      reduce_call (fun a b => yeval (upd (upd R (SV x) a) (SV y) b) xy) ax v0 vs
  | YTuple ops =>
      let* vs := mapM (yeval R) ops in let* l := mapM ya vs in Ok (YT l)
  | YUntuple at_ _ t =>
      let* v := yeval R t in
      match v with
      | YT l => let* a := of_opt EShape (nth_error l at_) in Ok (YA a)
      | YA _ => Err EType
      end
  | YEinsum s ops =>
      let* vs := mapM (yeval R) ops in let* l := mapM ya vs in
      let* b := nd_einsum s l in Ok (YA b)
  | YExt _ f ops =>
      let* vs := mapM (yeval R) ops in let* l := mapM ya vs in
      let* b := ext_call f l in Ok (YA b)
  end.

End Yarr.
