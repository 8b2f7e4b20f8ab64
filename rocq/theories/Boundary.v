(** Where an expression meets the outside: [Vec.or_empty], extrinsic functions
    and [eval] (ein/frontend/ndarray.py:114-125, 225-228, 374-398). *)
From Verif Require Import Base Scalar Tensor Types Sym Phi Den Frontend Layout Comprehension.

Section Boundary.
Context {FO : FloatOps} {EX : Externs}.
Variable dict_attr : nat -> bool.

(** ndarray.py:225-228: [where(self.size(0) > 0, self[item], empty)], with
    [size > 0] built by ndarray.py:336-337.  [n] numbers the new indices. *)
Definition or_empty (self : obj) (items : list item) (empty : obj) (n : nat) : res obj :=
  let* s := vec_size self 0 in
  let* w := wrap s in
  let* c := mk (f_gt (fst w) (p_int 0)) in
  let* x := getitem dict_attr items n self in
  std_where dict_attr (OArr c LAtom) x empty (n + length items).

(** ndarray.py:385-392: [zip(operands, input_signature, strict=True)]; the type
    of an argument is first asked for its layout, which raises for records. *)
Fixpoint check_signature (es : list phi) (ins : list ty) : res unit :=
  match es, ins with
  | [], [] => Ok tt
  | e :: es, exp :: ins =>
      let* t := typ e in
      let* _ := unambiguous_layout t in
      let* _ := guard (ty_eqb t exp) EType in
      check_signature es ins
  | _, _ => Err EValue
  end.

(** ndarray.py:374-398 [ext(fun, signature)(args)], with [_to_array] of
    ndarray.py:62-82 choosing the layout from the declared type.  An argument
    list of another length than the signature is a ValueError, after the
    arguments before its end have been compared. *)
Definition extrinsic (ins : option (list ty)) (out : ty) (f : nat) (args : list obj) : res obj :=
  let* ws := mapM wrap args in
  let es := map fst ws in
  let* _ := match ins with None => Ok tt | Some ts => check_signature es ts end in
  let* e := mk (PExt out f es) in
  let* l := unambiguous_layout out in
  Ok (to_array e l).

(** ndarray.py:114-125.  [dom] are the keys of [env]; [run] is the backend. *)
Definition eval_array {A} (run : phi -> env -> res A) (e : phi) (dom : list sym) (E : env) : res A :=
  let* _ := guard (forallb (fun s => smem s dom) (fsyms e)) EValue in
  run e E.

End Boundary.
