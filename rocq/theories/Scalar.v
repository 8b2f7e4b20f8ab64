(** Scalars and the scalar operators (ein/phi/type_system.py:215-245,
    ein/phi/phi.py:445-589).

    Simplification: ints are unbounded (numpy int64 wraps); floats are an
    abstract carrier with abstract operations, so that every theorem holds for
    every interpretation of them, IEEE doubles included. *)
From Verif Require Import Base.
Local Open Scope Z_scope.

(** ein/phi/type_system.py:24-25 [SCALAR_TYPES = (bool, int, float)] *)
Inductive kind : Type := KBool | KInt | KFloat.

Definition kind_eqb (a b : kind) : bool :=
  match a, b with
  | KBool, KBool | KInt, KInt | KFloat, KFloat => true
  | _, _ => false
  end.

Lemma kind_eqb_eq a b : kind_eqb a b = true <-> a = b.
Proof. destruct a, b; simpl; split; congruence. Qed.

Lemma kind_eqb_refl a : kind_eqb a a = true.
Proof. destruct a; reflexivity. Qed.

(** The float carrier, its operations, and the contents of uninitialised
    memory ([numpy.empty]).  Nothing is assumed about any of them. *)
Class FloatOps : Type := {
  F : Type;
  F_eq_dec : forall a b : F, {a = b} + {a <> b};
  fadd : F -> F -> F;
  fsub : F -> F -> F;
  fmul : F -> F -> F;
  fpow : F -> F -> F;
  fmin : F -> F -> F;
  fmax : F -> F -> F;
  fneg : F -> F;
  frecip : F -> F;
  fexp : F -> F;
  fsin : F -> F;
  fcos : F -> F;
  fltb : F -> F -> bool;
  fleb : F -> F -> bool;
  feqb : F -> F -> bool;
  f_of_Z : Z -> F;
  fjunk : F;
  zjunk : Z;
  bjunk : bool
}.

Section Scalars.
Context {FO : FloatOps}.

Inductive scalar : Type :=
| SB (b : bool)
| SI (z : Z)
| SF (f : F).

Definition skind (s : scalar) : kind :=
  match s with SB _ => KBool | SI _ => KInt | SF _ => KFloat end.

Definition sjunk (k : kind) : scalar :=
  match k with KBool => SB bjunk | KInt => SI zjunk | KFloat => SF fjunk end.

Lemma skind_sjunk k : skind (sjunk k) = k.
Proof. destruct k; reflexivity. Qed.

Lemma scalar_eq_dec (a b : scalar) : {a = b} + {a <> b}.
Proof.
  destruct a as [a|a|a], b as [b|b|b]; try (right; congruence).
  - destruct (Bool.bool_dec a b); [left|right]; congruence.
  - destruct (Z.eq_dec a b); [left|right]; congruence.
  - destruct (F_eq_dec a b); [left|right]; congruence.
Defined.

(** ein/phi/phi.py:477-509 *)
Inductive uop : Type := UNeg | URecip | UExp | USin | UCos | UNot | UFloat.
(** ein/phi/phi.py:517-579 *)
Inductive bop : Type :=
| BAdd | BSub | BMul | BMod | BPow | BMin | BMax
| BLt | BLe | BEq | BNe | BAnd | BOr.

Definition uop_eqb (a b : uop) : bool :=
  match a, b with
  | UNeg, UNeg | URecip, URecip | UExp, UExp | USin, USin | UCos, UCos
  | UNot, UNot | UFloat, UFloat => true
  | _, _ => false
  end.
Definition bop_eqb (a b : bop) : bool :=
  match a, b with
  | BAdd, BAdd | BSub, BSub | BMul, BMul | BMod, BMod | BPow, BPow
  | BMin, BMin | BMax, BMax | BLt, BLt | BLe, BLe | BEq, BEq | BNe, BNe
  | BAnd, BAnd | BOr, BOr => true
  | _, _ => false
  end.
Lemma uop_eqb_eq a b : uop_eqb a b = true <-> a = b.
Proof. destruct a, b; simpl; split; congruence. Qed.
Lemma bop_eqb_eq a b : bop_eqb a b = true <-> a = b.
Proof. destruct a, b; simpl; split; congruence. Qed.

(** numpy.mod on ints: sign of the divisor; division by zero gives 0
    (with a warning). *)
Definition npmod (a b : Z) : Z := if b =? 0 then 0 else a mod b.

(** The element-level meaning of the numpy ufuncs at the kinds their
    signatures admit (ein/phi/type_system.py:217-245).  At other kinds numpy
    would promote; the type checker never lets that happen, so it is an error
    here ([None]). *)
Definition sem_un (o : uop) (a : scalar) : option scalar :=
  match o, a with
  | UNeg, SI x => Some (SI (- x))
  | UNeg, SF x => Some (SF (fneg x))
  | URecip, SF x => Some (SF (frecip x))
  | UExp, SF x => Some (SF (fexp x))
  | USin, SF x => Some (SF (fsin x))
  | UCos, SF x => Some (SF (fcos x))
  | UNot, SB b => Some (SB (negb b))
  | UFloat, SI x => Some (SF (f_of_Z x))
  | _, _ => None
  end.

Definition sem_bin (o : bop) (a b : scalar) : option scalar :=
  match o, a, b with
  | BAdd, SI x, SI y => Some (SI (x + y))
  | BAdd, SF x, SF y => Some (SF (fadd x y))
  | BSub, SI x, SI y => Some (SI (x - y))
  | BSub, SF x, SF y => Some (SF (fsub x y))
  | BMul, SI x, SI y => Some (SI (x * y))
  | BMul, SF x, SF y => Some (SF (fmul x y))
  | BMod, SI x, SI y => Some (SI (npmod x y))
  | BPow, SF x, SF y => Some (SF (fpow x y))
  | BMin, SI x, SI y => Some (SI (Z.min x y))
  | BMin, SF x, SF y => Some (SF (fmin x y))
  | BMax, SI x, SI y => Some (SI (Z.max x y))
  | BMax, SF x, SF y => Some (SF (fmax x y))
  | BLt, SI x, SI y => Some (SB (x <? y))
  | BLt, SF x, SF y => Some (SB (fltb x y))
  | BLe, SI x, SI y => Some (SB (x <=? y))
  | BLe, SF x, SF y => Some (SB (fleb x y))
  | BEq, SI x, SI y => Some (SB (x =? y))
  | BEq, SF x, SF y => Some (SB (feqb x y))
  | BNe, SI x, SI y => Some (SB (negb (x =? y)))
  | BNe, SF x, SF y => Some (SB (negb (feqb x y)))
  | BAnd, SB x, SB y => Some (SB (x && y))
  | BOr, SB x, SB y => Some (SB (x || y))
  | _, _, _ => None
  end.

(** numpy.where on scalars *)
Definition sem_where (c a b : scalar) : option scalar :=
  match c with
  | SB c => if kind_eqb (skind a) (skind b) then Some (if c then a else b) else None
  | _ => None
  end.

(** Result kinds, as tables on kinds. *)
Definition kind_un (o : uop) (k : kind) : option kind :=
  match o, k with
  | UNeg, KInt => Some KInt
  | UNeg, KFloat => Some KFloat
  | URecip, KFloat | UExp, KFloat | USin, KFloat | UCos, KFloat => Some KFloat
  | UNot, KBool => Some KBool
  | UFloat, KInt => Some KFloat
  | _, _ => None
  end.

Definition kind_bin (o : bop) (a b : kind) : option kind :=
  match o, a, b with
  | (BAdd | BSub | BMul | BMin | BMax), KInt, KInt => Some KInt
  | (BAdd | BSub | BMul | BMin | BMax), KFloat, KFloat => Some KFloat
  | BMod, KInt, KInt => Some KInt
  | BPow, KFloat, KFloat => Some KFloat
  | (BLt | BLe | BEq | BNe), KInt, KInt => Some KBool
  | (BLt | BLe | BEq | BNe), KFloat, KFloat => Some KBool
  | (BAnd | BOr), KBool, KBool => Some KBool
  | _, _, _ => None
  end.

Definition kind_where (c a b : kind) : option kind :=
  match c with
  | KBool => if kind_eqb a b then Some a else None
  | _ => None
  end.

Lemma sem_un_kind o a : option_map skind (sem_un o a) = kind_un o (skind a).
Proof. destruct o, a; reflexivity. Qed.

Lemma sem_bin_kind o a b :
  option_map skind (sem_bin o a b) = kind_bin o (skind a) (skind b).
Proof. destruct o, a, b; reflexivity. Qed.

Lemma sem_where_kind c a b :
  option_map skind (sem_where c a b) = kind_where (skind c) (skind a) (skind b).
Proof.
  destruct c; simpl; auto. destruct (kind_eqb (skind a) (skind b)) eqn:E; auto.
  simpl. apply kind_eqb_eq in E. destruct b0; congruence.
Qed.

End Scalars.
