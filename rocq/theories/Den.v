(** Reference (pointful) semantics of Phi terms.

    This is the specification the compiler is measured against.  It is the
    reading of the language given by ein/backend/naive.py:14-85, with the
    following deliberate differences, which make it a specification rather than
    a transcript (the transcript is Naive.v):
    - a comprehension of size 0 keeps the trailing dimensions and element kind
      its body has at index 0 (naive.py:20 loses them: [numpy.array([])]);
    - arrays of records are represented as records of arrays, so that the same
      semantics covers terms before and after the struct-of-arrays transform
      (naive.py only ever sees terms after it);
    - the environment is persistent. *)
From Verif Require Import Base Scalar Tensor Types Phi.

Section Den.
Context {FO : FloatOps}.

(** ein/value.py:17-21: a value is an array or a pair of values. *)
Inductive val : Type :=
| VArr (a : arr)
| VPair (v w : val).

Fixpoint val_wf (v : val) : Prop :=
  match v with
  | VArr a => arr_wf a
  | VPair v w => val_wf v /\ val_wf w
  end.

(** ein/value.py:74-81 [Value.type] *)
Fixpoint vtype (v : val) : ty :=
  match v with
  | VArr a => ndarray_type (length (ashape a)) (akind a)
  | VPair v w => TPair (vtype v) (vtype w)
  end.

Definition as_arr (v : val) : res arr :=
  match v with VArr a => Ok a | VPair _ _ => Err EType end.

Definition as_pair (v : val) : res (val * val) :=
  match v with VPair v w => Ok (v, w) | VArr _ => Err EType end.

Definition vint (z : Z) : val := VArr (ascalar (SI z)).
Definition vnat (n : nat) : val := vint (Z.of_nat n).
Definition val_int (v : val) : res Z := let* a := as_arr v in as_int a.
Definition val_scalar (v : val) : res scalar := let* a := as_arr v in as_scalar a.
Definition vscalar (s : scalar) : val := VArr (ascalar s).

(** Element selection with clipping (naive.py:49-54). On an empty array the
    result is uninitialised memory of the right shape. *)
Definition aget (a : arr) (z : Z) : res arr :=
  match ashape a with
  | [] => Err EType
  | n :: _ => Ok (asub a (clip z n))
  end.

Fixpoint vget (v : val) (z : Z) : res val :=
  match v with
  | VArr a => let* b := aget a z in Ok (VArr b)
  | VPair v w => let* v' := vget v z in let* w' := vget w z in Ok (VPair v' w')
  end.

(** Size of an axis. *)
Fixpoint vdim (v : val) (axis : nat) : res nat :=
  match v with
  | VArr a => of_opt EShape (nth_error (ashape a) axis)
  | VPair v w =>
      let* n := vdim v axis in let* m := vdim w axis in
      let* _ := guard (n =? m) EShape in Ok n
  end.

(** numpy.array([v0, v1, ...]); [tmpl] gives the common shape and kind. *)
Fixpoint vstack (tmpl : val) (vs : list val) : res val :=
  match tmpl with
  | VArr a =>
      let* l := mapM as_arr vs in
      let* _ := guard (forallb (arr_like a) l) EJagged in
      Ok (VArr (astack (akind a) (ashape a) l))
  | VPair t1 t2 =>
      let* ps := mapM as_pair vs in
      let* v := vstack t1 (map fst ps) in
      let* w := vstack t2 (map snd ps) in
      Ok (VPair v w)
  end.

(** numpy.concatenate((a, b)) along the first axis *)
Definition aconcat (a b : arr) : res arr :=
  match ashape a, ashape b with
  | n :: sh, m :: sh' =>
      let* _ := guard (list_nat_eqb sh sh') EShape in
      let* _ := guard (kind_eqb (akind a) (akind b)) EType in
      Ok (tab (akind a) (n + m :: sh)
            (fun idx => match idx with
                        | k :: idx => if k <? n then get a (k :: idx) else get b (k - n :: idx)
                        | [] => sjunk (akind a)
                        end))
  | _, _ => Err EType
  end.

Fixpoint vconcat (v w : val) : res val :=
  match v, w with
  | VArr a, VArr b => let* c := aconcat a b in Ok (VArr c)
  | VPair v1 v2, VPair w1 w2 =>
      let* c1 := vconcat v1 w1 in let* c2 := vconcat v2 w2 in Ok (VPair c1 c2)
  | _, _ => Err EType
  end.

Definition lift1 (f : scalar -> option scalar) (v : val) : res val :=
  let* a := val_scalar v in
  let* s := of_opt EType (f a) in Ok (vscalar s).
Definition lift2 (f : scalar -> scalar -> option scalar) (v w : val) : res val :=
  let* a := val_scalar v in
  let* b := val_scalar w in
  let* s := of_opt EType (f a b) in Ok (vscalar s).
Definition lift3 (f : scalar -> scalar -> scalar -> option scalar) (u v w : val) : res val :=
  let* a := val_scalar u in
  let* b := val_scalar v in
  let* c := val_scalar w in
  let* s := of_opt EType (f a b c) in Ok (vscalar s).

Definition env : Type := genv val.

(** Opaque extrinsic functions (phi.py:621-640): user supplied, arbitrary. *)
Class Externs := ext_call : nat -> list arr -> res arr.

Context {EX : Externs}.

(** All the integers are equal and there is at least one
    (naive.py:62: the set of values has exactly one element). *)
Definition all_equal (zs : list Z) : bool :=
  match zs with
  | [] => false
  | z :: zs => forallb (Z.eqb z) zs
  end.

(** The body of a loop, executed for counters [k], [k+1], ... *)
Fixpoint iter_res {A} (f : nat -> A -> res A) (k n : nat) (a : A) : res A :=
  match n with
  | 0 => Ok a
  | S n => let* a' := f k a in iter_res f (S k) n a'
  end.

Fixpoint den (E : env) (e : phi) {struct e} : res val :=
  match e with
  | PConst a => Ok (VArr a)
  | PStore s _ => of_opt EUnbound (E s)
  | PLet x b body => let* v := den E b in den (upd E (SV x) v) body
  | PAssertEq t ops =>
      let* vs := mapM (den E) ops in
      let* zs := mapM val_int vs in
      let* _ := guard (all_equal zs) EAssert in
      den E t
  | PDim t axis => let* v := den E t in let* n := vdim v axis in Ok (vnat n)
  | PGet t item =>
      let* v := den E t in
      let* w := den E item in
      let* z := val_int w in
      vget v z
  | PCons a b => let* v := den E a in let* w := den E b in Ok (VPair v w)
  | PFirst t => let* v := den E t in let* p := as_pair v in Ok (fst p)
  | PSecond t => let* v := den E t in let* p := as_pair v in Ok (snd p)
  | PVec i size body =>
      let* vz := den E size in
      let* z := val_int vz in
      let* v0 := den (upd E (SX i) (vint 0)) body in
      let* vs := mapM (fun k => den (upd E (SX i) (vnat k)) body) (seq 0 (Z.to_nat z)) in
      vstack v0 vs
  | PFold c size acc init body =>
      let* vz := den E size in
      let* z := val_int vz in
      let* v0 := den E init in
      iter_res (fun k v => den (upd (upd E (SV acc) v) (SV c) (vnat k)) body)
               0 (Z.to_nat z) v0
  | PReduce init x y xy vecs =>
      let* vs := mapM (den E) vecs in
      let* ns := mapM (fun v => vdim v 0) vs in
      match ns with
      | [] => Err EValue
      | n :: ns' =>
          let* _ := guard (forallb (Nat.eqb n) ns') EValue in
          let* v0 := den E init in
          iter_res (fun k v =>
              let* es := mapM (fun u => vget u (Z.of_nat k)) vs in
              match es with
              | [] => Err EType
              | e0 :: es' =>
                  den (upd (upd E (SV x) v) (SV y) (fold_left VPair es' e0)) xy
              end) 0 n v0
      end
  | PUn o a => let* v := den E a in lift1 (sem_un o) v
  | PBin o a b => let* v := den E a in let* w := den E b in lift2 (sem_bin o) v w
  | PWhere c a b =>
      let* u := den E c in let* v := den E a in let* w := den E b in lift3 sem_where u v w
  | PConcat a b => let* v := den E a in let* w := den E b in vconcat v w
  | PExt _ f ops =>
      let* vs := mapM (den E) ops in
      let* l := mapM as_arr vs in
      let* a := ext_call f l in Ok (VArr a)
  end.

Lemma iter_res_ext {A} (f g : nat -> A -> res A) k n a :
  (forall j b, k <= j < k + n -> f j b = g j b) -> iter_res f k n a = iter_res g k n a.
Proof.
  revert k a. induction n as [|n IH]; simpl; intros k a H; auto.
  rewrite H by lia. destruct (g k a); simpl; auto. apply IH. intros. apply H. lia.
Qed.

Lemma iter_res_snoc {A} (f : nat -> A -> res A) k n a :
  iter_res f k (S n) a = (let* b := iter_res f k n a in f (k + n) b).
Proof.
  revert k a. induction n as [|n IH]; intros k a.
  - simpl. rewrite Nat.add_0_r. destruct (f k a); reflexivity.
  - change (iter_res f k (S (S n)) a) with (let* b := f k a in iter_res f (S k) (S n) b).
    change (iter_res f k (S n) a) with (let* b := f k a in iter_res f (S k) n b).
    destruct (f k a); simpl; auto. specialize (IH (S k) a0). simpl in IH. rewrite IH.
    replace (k + S n) with (S (k + n)) by lia. reflexivity.
Qed.

End Den.
