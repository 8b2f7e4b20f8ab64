(** A concrete float carrier and concrete externals for the examples. *)
From Verif Require Import Base Scalar Tensor Types Sym Phi Den NdOps Yarr.

Definition zfloat : FloatOps := {|
  F := Z; F_eq_dec := Z.eq_dec;
  fadd := Z.add; fsub := Z.sub; fmul := Z.mul; fpow := Z.pow; fmin := Z.min; fmax := Z.max;
  fneg := Z.opp; frecip := fun x => x; fexp := fun x => x; fsin := fun x => x; fcos := fun x => x;
  fltb := Z.ltb; fleb := Z.leb; feqb := Z.eqb; f_of_Z := fun x => x;
  fjunk := 0%Z; zjunk := 0%Z; bjunk := false |}.

Definition no_externs : @Externs zfloat := fun _ _ => Err EValue.
Definition edge_pads : @PadOps zfloat := fun a pads => @nd_edge_pad zfloat a pads.

(** arrays of floats and ints from their elements *)
Definition farr (sh : list nat) (l : list Z) : @arr zfloat := @mkArr zfloat KFloat sh (map (@SF zfloat) l).
Definition iarr (sh : list nat) (l : list Z) : @arr zfloat := @mkArr zfloat KInt sh (map (@SI zfloat) l).
