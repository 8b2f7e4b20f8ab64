(** ein/phi/type_system.py: types, primitive types, scalar signatures. *)
From Verif Require Import Base Scalar.

(** type_system.py:36-93 [Scalar], [Vector], [Pair] *)
Inductive ty : Type :=
| TScalar (k : kind)
| TVec (elem : ty)
| TPair (first second : ty).

Fixpoint ty_eqb (a b : ty) : bool :=
  match a, b with
  | TScalar k, TScalar k' => kind_eqb k k'
  | TVec a, TVec b => ty_eqb a b
  | TPair a1 a2, TPair b1 b2 => ty_eqb a1 b1 && ty_eqb a2 b2
  | _, _ => false
  end.

Lemma ty_eqb_eq a b : ty_eqb a b = true <-> a = b.
Proof.
  revert b. induction a; destruct b; simpl; split; intros H; try discriminate.
  - apply kind_eqb_eq in H. congruence.
  - injection H as <-. apply kind_eqb_refl.
  - apply IHa in H. congruence.
  - injection H as <-. apply IHa; auto.
  - apply andb_true_iff in H as [H1 H2]. apply IHa1 in H1. apply IHa2 in H2. congruence.
  - injection H as <- <-. apply andb_true_iff. split; [apply IHa1|apply IHa2]; auto.
Qed.

Lemma ty_eqb_refl a : ty_eqb a a = true.
Proof. apply ty_eqb_eq. reflexivity. Qed.

(** type_system.py:108-109 [ndarray_type] *)
Fixpoint ndarray_type (rank : nat) (k : kind) : ty :=
  match rank with
  | 0 => TScalar k
  | S r => TVec (ndarray_type r k)
  end.

(** type_system.py:116-143 [PrimitiveArrayType]: rank and kind.
    type_system.py:146-179 [PrimitiveType]: a tuple of them. *)
Definition pat : Type := (nat * kind)%type.
Definition pty : Type := list pat.

(** [PrimitiveType.single] (154-157): unpacking a one-element tuple. *)
Definition single (p : pty) : res pat :=
  match p with [x] => Ok x | _ => Err EValue end.

(** [Scalar/Vector/Pair.primitive_type] (57-59, 72-74, 89-93) *)
Fixpoint primitive_type (t : ty) : res pty :=
  match t with
  | TScalar k => Ok [(0, k)]
  | TVec e => let* p := primitive_type e in
              let* s := single p in Ok [(S (fst s), snd s)]
  | TPair a b => let* p := primitive_type a in
                 let* q := primitive_type b in Ok (p ++ q)
  end.

(** [PrimitiveArrayType.type] (128-134) *)
Definition pat_type (p : pat) : ty := ndarray_type (fst p) (snd p).

(** [PrimitiveType.type] (159-166) *)
Fixpoint pty_type (p : pty) : res ty :=
  match p with
  | [] => Err EAssert
  | [x] => Ok (pat_type x)
  | x :: xs => let* t := pty_type xs in Ok (TPair (pat_type x) t)
  end.

(** Scalar signatures.  Signature entries are a letter or a concrete kind. *)
Inductive sig_arg : Type := SLetter (v : nat) | SKind (k : kind).
Definition signature : Type := (list sig_arg * sig_arg)%type.
Definition constraints : Type := list (nat * list kind).

Fixpoint assoc {A} (x : nat) (l : list (nat * A)) : option A :=
  match l with
  | [] => None
  | (y, a) :: t => if x =? y then Some a else assoc x t
  end.

Definition kind_mem (k : kind) (l : list kind) : bool := existsb (kind_eqb k) l.

(** The loop of [resolve_scalar_signature] (191-207): [zip] stops at the
    shorter of the two lists. *)
Fixpoint resolve_args (types : list ty) (sig : list sig_arg) (cs : constraints)
  (tv : list (nat * kind)) : res (list (nat * kind)) :=
  match types, sig with
  | t :: types, s :: sig =>
      match t with
      | TScalar k =>
          match s with
          | SLetter v =>
              let* _ := guard (match assoc v cs with
                               | Some ks => kind_mem k ks
                               | None => true
                               end) EType in
              let* _ := guard (match assoc v tv with
                               | Some k' => kind_eqb k' k
                               | None => true
                               end) EType in
              resolve_args types sig cs ((v, k) :: tv)
          | SKind k' =>
              let* _ := guard (kind_eqb k k') EType in
              resolve_args types sig cs tv
          end
      | _ => Err EType
      end
  | _, _ => Ok tv
  end.

(** [resolve_scalar_signature] (182-212) *)
Definition resolve_scalar_signature (types : list ty) (sg : signature) (cs : constraints)
  : res ty :=
  let (args, result) := sg in
  let* tv := resolve_args types args cs [] in
  match result with
  | SLetter v => let* k := of_opt EUnbound (assoc v tv) in Ok (TScalar k)
  | SKind k => Ok (TScalar k)
  end.

(** [UFUNC_SIGNATURES] (215-245); the letter "T" is 0. *)
Definition number : list kind := [KInt; KFloat].

Definition sig_un (o : uop) : signature * constraints :=
  match o with
  | UNeg => (([SLetter 0], SLetter 0), [(0, number)])
  | URecip | UExp | USin | UCos => (([SKind KFloat], SKind KFloat), [])
  | UFloat => (([SKind KInt], SKind KFloat), [])
  | UNot => (([SKind KBool], SKind KBool), [])
  end.

Definition sig_bin (o : bop) : signature * constraints :=
  match o with
  | BAdd | BSub | BMul | BMin | BMax =>
      (([SLetter 0; SLetter 0], SLetter 0), [(0, number)])
  | BMod => (([SKind KInt; SKind KInt], SKind KInt), [])
  | BPow => (([SKind KFloat; SKind KFloat], SKind KFloat), [])
  | BLt | BLe | BEq | BNe =>
      (([SLetter 0; SLetter 0], SKind KBool), [(0, number)])
  | BAnd | BOr => (([SKind KBool; SKind KBool], SKind KBool), [])
  end.

Definition sig_where : signature * constraints :=
  (([SKind KBool; SLetter 0; SLetter 0], SLetter 0), []).
