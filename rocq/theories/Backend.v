(** ein/backend/array_backend.py:84-255, torch_backend.py and jax_backend.py: the
    evaluation of array code on the backends that have no in-place operations.
    The environment is a dictionary that is changed on the way. *)
From Verif Require Import Base Scalar Tensor Types Sym Phi Den NdOps Term PhiTerm NdFacts DenWf Yarr YTerm YWf Machine MachineSim MachineRun Torch.

Section Backend.
Context {FO : FloatOps} {EX : Externs}.

(** Computations that read and change the environment. *)
Definition SM (A : Type) : Type := yenv -> res (A * yenv).
Definition sret {A} (a : A) : SM A := fun R => Ok (a, R).
Definition sbind {A B} (m : SM A) (k : A -> SM B) : SM B := fun R => let* r := m R in k (fst r) (snd r).
Definition slift {A} (r : res A) : SM A := fun R => let* a := r in Ok (a, R).
Definition sget (x : sym) : SM yval := fun R => let* v := of_opt EUnbound (R x) in Ok (v, R).
Definition sset (x : sym) (v : yval) : SM unit := fun R => Ok (tt, upd R x v).
Definition sdel (x : sym) : SM unit := fun R =>
  match R x with
  | None => Err EUnbound
  | Some _ => Ok (tt, fun y => if sym_eqb y x then None else R y)
  end.
Definition smapM {A B} (f : A -> SM B) : list A -> SM (list B) :=
  fix go l := match l with
  | [] => sret []
  | x :: l => sbind (f x) (fun y => sbind (go l) (fun ys => sret (y :: ys)))
  end.
Definition somapM {A B} (f : A -> SM B) (o : option A) : SM (option B) :=
  match o with Some a => sbind (f a) (fun b => sret (Some b)) | None => sret None end.
Fixpoint sloop {A} (f : nat -> A -> SM A) (k n : nat) (a : A) : SM A :=
  match n with
  | 0 => sret a
  | S n => sbind (f k a) (sloop f (S k) n)
  end.

(** What the backends do differently from each other. *)
Record backend := mkBackend {
  (* squeeze, unsqueeze, gather, take, pad *)
  b_squeeze : list nat -> arr -> res arr;
  b_unsqueeze : list nat -> arr -> res arr;
  b_gather : nat -> arr -> arr -> res arr;
  b_take : arr -> list (option arr) -> res arr;
  b_pad : arr -> list (Z * Z) -> res arr;
  (* [fold] is [jax.lax.fori_loop] *)
  b_fori : bool;
  (* an expression the backend refuses to compute in a given environment *)
  b_refuses : yarr -> yenv -> bool
}.

(** numpy_backend.py:29-74 *)
Definition numpy_like (pad : arr -> list (Z * Z) -> res arr) : backend :=
  mkBackend nd_squeeze nd_unsqueeze nd_gather nd_take pad false (fun _ _ => false).

(** torch_backend.py:63-66.  [torch.gather] does not broadcast: the index may be
    smaller than the input along the other axes, and has the shape of the result. *)
Definition torch_gather (ax : nat) (a item : arr) : res arr :=
  let* _ := guard (ax <? arank a) EValue in
  let* _ := guard (arank a =? arank item) EValue in
  let* _ := guard (kind_eqb (akind item) KInt) EType in
  let n := nth ax (ashape a) 0 in
  let* _ := guard (forallb (fun d => (d =? ax) || (nth d (ashape item) 0 <=? nth d (ashape a) 0)) (seq 0 (arank a))) EShape in
  let* _ := guard ((0 <? n) || (size_of (ashape item) =? 0)) EShape in
  Ok (tab (akind a) (ashape item) (fun idx => get a (set_nth ax (clip (int_of (get item idx)) n) idx))).

(** torch_backend.py:34-99.  The other operations of torch are taken to be those
    of NumPy; [refuses] stands for its restrictions on element types. *)
Definition torch (refuses : yarr -> yenv -> bool) : backend :=
  mkBackend torch_squeeze torch_unsqueeze torch_gather nd_take torch_pad false refuses.

(** jax_backend.py:39-125.  JAX does not raise for an index that is out of bounds
    ([gather0], [take0]: what it returns instead), and it raises where a shape
    depends on a value that is not known yet ([refuses]). *)
Definition jax (gather0 : nat -> arr -> arr -> res arr) (take0 : arr -> list (option arr) -> res arr)
  (refuses : yarr -> yenv -> bool) : backend :=
  mkBackend nd_squeeze nd_unsqueeze
    (fun ax a i => match nd_gather ax a i with Ok b => Ok b | Err _ => gather0 ax a i end)
    (fun a l => match nd_take a l with Ok b => Ok b | Err _ => take0 a l end)
    nd_edge_pad true refuses.

(** [fori_loop] wants the carried value to keep its shape and element type. *)
Definition carry1 (a b : arr) : bool := (if list_eq_dec Nat.eq_dec (ashape a) (ashape b) then true else false) && kind_eqb (akind a) (akind b).
Definition same_carry (v w : yval) : bool :=
  match v, w with
  | YA a, YA b => carry1 a b
  | YT l, YT l' => (length l =? length l') && forallb (fun p => carry1 (fst p) (snd p)) (combine l l')
  | _, _ => false
  end.

Variable B : backend.

(** array_backend.py:104-155 *)
Fixpoint btree (get_ : list arr -> list arr -> SM (list arr)) (ax fuel n : nat) (vals acc : list arr) : SM (list arr) :=
  match fuel with
  | 0 => fun _ => Err EFuel
  | S fuel =>
      if 1 <? n then
        sbind (if Nat.odd n then sbind (slift (mapM (pick ax (fun d => [d - 1])) vals)) (fun l => get_ l acc)
               else sret acc) (fun acc =>
        sbind (slift (mapM (pick ax evens) vals)) (fun p =>
        sbind (slift (mapM (pick ax odds) vals)) (fun q =>
        sbind (get_ p q) (fun vals => btree get_ ax fuel (n / 2) vals acc))))
      else if n =? 1 then
        sbind (slift (mapM (pick ax (fun _ => [0])) vals)) (fun l => get_ l acc)
      else sret acc
  end.
Definition breduce (x y : sym) (run : SM yval) (ax : nat) (acc vals : yval) : SM yval :=
  let sg := match vals with YA _ => true | YT _ => false end in
  sbind (slift (wrap_vals sg vals)) (fun vs =>
  sbind (slift (wrap_vals sg acc)) (fun ac =>
  sbind (slift (mapM (fun v => of_opt EShape (nth_error (ashape v) ax)) vs)) (fun ns =>
  match ns with
  | [] => fun _ => Err EValue
  | n :: ns =>
      sbind (slift (guard (forallb (Nat.eqb n) ns) EValue)) (fun _ =>
      sbind (slift (mapM (b_unsqueeze B [ax]) ac)) (fun ac =>
      let get_ x0 y0 :=
        sbind (slift (unwrap_vals sg x0)) (fun a =>
        sbind (sset x a) (fun _ =>
        sbind (slift (unwrap_vals sg y0)) (fun b =>
        sbind (sset y b) (fun _ =>
        sbind run (fun v => slift (wrap_vals sg v)))))) in
      sbind (btree get_ ax (S n) n vs ac) (fun ac =>
      sbind (if n =? 0 then sret tt else sbind (sdel x) (fun _ => sdel y)) (fun _ =>
      sbind (slift (mapM (b_squeeze B [ax]) ac)) (fun ac =>
      slift (unwrap_vals sg ac))))))
  end))).

(** array_backend.py:84-102: a loop in Python, over the environment *)
Definition bfold (c acc : sym) (init count body : SM yval) : SM yval :=
  sbind init (fun v0 => sbind count (fun w => sbind (slift (ya w)) (fun b => sbind (slift (as_int b)) (fun z =>
  sbind (sloop (fun k a =>
           sbind (sset acc a) (fun _ =>
           sbind (sset c (YA (ascalar (SI (Z.of_nat k))))) (fun _ => body))) 0 (Z.to_nat z) v0) (fun v =>
  sbind (if Z.to_nat z =? 0 then sret tt else sbind (sdel acc) (fun _ => sdel c)) (fun _ =>
  sret v)))))).
(** jax_backend.py:97-114 *)
Definition bfori (c acc : sym) (init count body : SM yval) : SM yval :=
  sbind count (fun w => sbind (slift (ya w)) (fun b => sbind (slift (as_int b)) (fun z => sbind init (fun v0 =>
  sloop (fun k a =>
    sbind (sset acc a) (fun _ =>
    sbind (sset c (YA (ascalar (SI (Z.of_nat k))))) (fun _ =>
    sbind body (fun v =>
    sbind (sdel acc) (fun _ => sbind (sdel c) (fun _ =>
    sbind (slift (guard (same_carry a v) EType)) (fun _ => sret v))))))) 0 (Z.to_nat z) v0)))).

(** array_backend.py:157-255; torch_backend.py:119-157, jax_backend.py:163-200 *)
Fixpoint bexec (e : yarr) {struct e} : SM yval :=
  let op1 (t : yarr) (f : arr -> res arr) :=
    sbind (bexec t) (fun v => sbind (slift (ya v)) (fun a => sbind (slift (f a)) (fun b => sret (YA b)))) in
  let ints (l : list (option yarr)) :=
    smapM (somapM (fun y => sbind (bexec y) (fun w => sbind (slift (ya w)) (fun a => slift (as_int a))))) l in
  let arrs (l : list yarr) (k : list arr -> SM yval) :=
    sbind (smapM bexec l) (fun vs => sbind (slift (mapM ya vs)) k) in
  sbind (fun R => if b_refuses B e R then Err EType else Ok (tt, R)) (fun _ =>
  match e with
  | YConst a => sret (YA a)
  | YVar x _ => sget (SV x)
  | YLet x b body =>
      sbind (bexec b) (fun v => sbind (sset (SV x) v) (fun _ =>
      sbind (bexec body) (fun r => sbind (sdel (SV x)) (fun _ => sret r))))
  | YDim ax t => op1 t (nd_dim ax)
  | YRange t => op1 t (fun a => let* z := as_int a in Ok (nd_range z))
  | YConcat ops ax => arrs ops (fun l => sbind (slift (nd_concat ax l)) (fun b => sret (YA b)))
  | YTranspose pi t => op1 t (nd_transpose pi)
  | YSqueeze axes t => op1 t (b_squeeze B axes)
  | YUnsqueeze axes t => op1 t (b_unsqueeze B axes)
  | YGather ax t i =>
      sbind (bexec t) (fun v => sbind (bexec i) (fun w =>
      sbind (slift (ya v)) (fun a => sbind (slift (ya w)) (fun b =>
      sbind (slift (b_gather B ax a b)) (fun c => sret (YA c))))))
  | YTake t items =>
      sbind (bexec t) (fun v =>
      sbind (smapM (somapM (fun y => sbind (bexec y) (fun w => slift (ya w)))) items) (fun ws =>
      sbind (slift (ya v)) (fun a => sbind (slift (b_take B a ws)) (fun c => sret (YA c)))))
  | YSlice t l r =>
      sbind (bexec t) (fun v => sbind (ints l) (fun ls => sbind (ints r) (fun rs =>
      sbind (slift (ya v)) (fun a => sbind (slift (nd_slice ls rs a)) (fun c => sret (YA c))))))
  | YPad t l r =>
      sbind (bexec t) (fun v => sbind (ints l) (fun ls => sbind (ints r) (fun rs =>
      sbind (slift (ya v)) (fun a =>
      sbind (slift (b_pad B a (combine (map or0 ls) (map or0 rs)))) (fun c => sret (YA c))))))
  | YRepeat ax c t =>
      sbind (bexec t) (fun v => sbind (bexec c) (fun w =>
      sbind (slift (ya v)) (fun a => sbind (slift (ya w)) (fun b => sbind (slift (as_int b)) (fun z =>
      sbind (slift (nd_repeat ax z a)) (fun c => sret (YA c)))))))
  | YReduceAxis r ax t => op1 t (nd_reduce r ax)
  | YCast k t => op1 t (nd_cast k)
  | YUn o t => op1 t (nd_un o)
  | YBin o x y _ =>
      sbind (bexec x) (fun v => sbind (bexec y) (fun w =>
      sbind (slift (ya v)) (fun a => sbind (slift (ya w)) (fun b =>
      sbind (slift (nd_bin o a b)) (fun c => sret (YA c))))))
  | YWhere x y z =>
      sbind (bexec x) (fun u => sbind (bexec y) (fun v => sbind (bexec z) (fun w =>
      sbind (slift (ya u)) (fun a => sbind (slift (ya v)) (fun b => sbind (slift (ya w)) (fun c =>
      sbind (slift (nd_where a b c)) (fun d => sret (YA d))))))))
  | YFold c size acc init body =>
      (if b_fori B then bfori else bfold) (SV c) (SV acc) (bexec init) (bexec size) (bexec body)
  | YReduce init x y xy vecs ax =>
      sbind (bexec init) (fun v0 => sbind (bexec vecs) (fun vs =>
      breduce (SV x) (SV y) (bexec xy) ax v0 vs))
  | YTuple ops => arrs ops (fun l => sret (YT l))
  | YUntuple at_ _ t =>
      sbind (bexec t) (fun v =>
      match v with
      | YT l => sbind (slift (of_opt EShape (nth_error l at_))) (fun a => sret (YA a))
      | YA _ => fun _ => Err EType
      end)
  | YEinsum s ops => arrs ops (fun l => sbind (slift (nd_einsum s l)) (fun b => sret (YA b)))
  | YExt _ f ops => arrs ops (fun l => sbind (slift (ext_call f l)) (fun b => sret (YA b)))
  end).

End Backend.
