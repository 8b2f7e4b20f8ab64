(** Properties of the types of array code: C42. *)
From Verif Require Import Base Scalar Tensor Types Sym Phi Den NdOps Yarr FastPad YTyping Sample.

Section Props.
Context {FO : FloatOps}.

(** The rank and element kind of an array, and of every component of a tuple. *)
Definition array_type (a : arr) : pat := (length (ashape a), akind a).
Definition value_type (v : yval) : pty :=
  match v with YA a => [array_type a] | YT l => map array_type l end.

(** Every variable in scope that has a value has one of its declared type. *)
Definition well_typed_env (G : nat -> option pty) (R : yenv) : Prop :=
  forall x p v, G x = Some p -> R (SV x) = Some v -> value_type v = p.

(** Padding keeps rank and kind, at the kinds [pk]. *)
Definition padding_keeps (PO : PadOps) (pk : kind -> bool) : Prop := forall a pads b,
  pk (akind a) = true -> length pads = length (ashape a) -> pad_call a pads = Ok b -> array_type b = array_type a.

Theorem C42_values_have_their_types (EX : Externs) (PO : PadOps) (pk : kind -> bool)
  (G : nat -> option pty) (R : yenv) (e : yarr) (p : pty) (v : yval) :
  padding_keeps PO pk -> ytyp e = Ok p -> ydecl pk G e = true -> ext_declared e -> well_typed_env G R ->
  yeval R e = Ok v -> value_type v = p.
Proof. intros HP T D X W E. exact (ytyp_sound pk HP e G R p v T D X W E). Qed.

(** With the reference padding. *)
Theorem C42_reference (EX : Externs) (G : nat -> option pty) (R : yenv) (e : yarr) (p : pty) (v : yval) :
  ytyp e = Ok p -> ydecl (fun _ => true) G e = true -> ext_declared e -> well_typed_env G R ->
  @yeval FO EX nd_edge_pad R e = Ok v -> value_type v = p.
Proof. intros T D X W E. exact (ytyp_sound (PO := nd_edge_pad) _ ref_pad_typed e G R p v T D X W E). Qed.

(** With NumPy's padding, when only floats are padded. *)
Theorem C42_numpy (garbage : list nat -> F) (EX : Externs) (G : nat -> option pty) (R : yenv) (e : yarr)
  (p : pty) (v : yval) :
  ytyp e = Ok p -> ydecl (kind_eqb KFloat) G e = true -> ext_declared e -> well_typed_env G R ->
  @yeval FO EX (fast_edge_pad garbage) R e = Ok v -> value_type v = p.
Proof.
  intros T D X W E. exact (ytyp_sound (PO := fast_edge_pad garbage) _ (numpy_pad_typed garbage) e G R p v T D X W E).
Qed.

End Props.

(** A loop with an accumulator, a reduction of a pair, a gather and a pad. *)
Definition ytyp_prog : @yarr zfloat :=
  YLet 5 (YTuple [YUnsqueeze [0] (YVar 1 [(1, KFloat)]); YPad (YVar 2 [(1, KInt)]) [None] [Some (YConst (iarr [] [1]%Z))]])
    (YFold 7 (YConst (iarr [] [2]%Z)) 6
       (YReduce (YConst (farr [] [0]%Z)) 8 9
          (YBin BAdd (YVar 8 [(1, KFloat)]) (YVar 9 [(1, KFloat)]) None) (YVar 1 [(1, KFloat)]) 0)
       (YBin BAdd (YVar 6 [(0, KFloat)])
          (YSqueeze [0] (YGather 0 (YVar 1 [(1, KFloat)]) (YUnsqueeze [0] (YVar 7 [(0, KInt)])))) None)).
Definition ytyp_scope : nat -> option pty :=
  fun x => match x with 1 => Some [(1, KFloat)] | 2 => Some [(1, KInt)] | _ => None end.
Definition ytyp_env : yenv :=
  fun s => match s with
           | SV 1 => Some (YA (farr [3] [10; 20; 30]%Z)) | SV 2 => Some (YA (iarr [2] [4; 5]%Z)) | _ => None
           end.
Example C42_example :
  ytyp ytyp_prog = Ok [(0, KFloat)] /\ ydecl (fun _ => true) ytyp_scope ytyp_prog = true /\
  @ext_declared zfloat no_externs ytyp_prog /\ well_typed_env ytyp_scope ytyp_env /\
  @yeval zfloat no_externs edge_pads ytyp_env ytyp_prog = Ok (YA (farr [] [90]%Z)).
Proof.
  split; [vm_compute; reflexivity|]. split; [vm_compute; reflexivity|].
  split; [simpl; tauto|]. split; [|vm_compute; reflexivity].
  intros [|[|[|x]]] p v HG HR; try discriminate; injection HG as <-; injection HR as <-; reflexivity.
Qed.

(** Without the condition on declarations: Let does not compare the type of its
    variable with that of the bound expression (yarr.py:148-150). *)
Theorem C42_let_refuted : exists (e : @yarr zfloat) p v,
  ytyp e = Ok p /\ @yeval zfloat no_externs edge_pads (fun _ => None) e = Ok v /\ value_type v <> p.
Proof.
  exists (YLet 0 (YConst (iarr [] [1]%Z)) (YVar 0 [(3, KFloat)])). do 2 eexists.
  split; [reflexivity|]. split; [vm_compute; reflexivity|]. discriminate.
Qed.
(** Reduce compares nothing with the type of the vectors (649-653): a matrix is
    reduced by an expression over vectors. *)
Theorem C42_reduce_refuted : exists (e : @yarr zfloat) p v,
  ytyp e = Ok p /\ @yeval zfloat no_externs edge_pads (fun _ => None) e = Ok v /\ value_type v <> p.
Proof.
  exists (YReduce (YConst (farr [] [0]%Z)) 0 1 (YBin BAdd (YVar 0 [(1, KFloat)]) (YVar 1 [(1, KFloat)]) None)
            (YConst (farr [2; 1] [10; 20]%Z)) 0). do 2 eexists.
  split; [reflexivity|]. split; [vm_compute; reflexivity|]. discriminate.
Qed.
(** NumPy's padding turns integers into floats (numpy_backend.py:98). *)
Theorem C42_integer_pad_refuted (garbage : list nat -> Z) : exists (e : @yarr zfloat) p v,
  ytyp e = Ok p /\ ydecl (fun _ => true) (fun _ => None) e = true /\
  @yeval zfloat no_externs (@fast_edge_pad zfloat garbage) (fun _ => None) e = Ok v /\ value_type v <> p.
Proof.
  exists (YPad (YConst (iarr [2] [4; 5]%Z)) [None] [Some (YConst (iarr [] [1]%Z))]). do 2 eexists.
  split; [reflexivity|]. split; [reflexivity|]. split; [lazy; reflexivity|]. discriminate.
Qed.

Print Assumptions C42_values_have_their_types.
Print Assumptions C42_reference.
Print Assumptions C42_numpy.
Print Assumptions C42_example.
Print Assumptions C42_let_refuted.
Print Assumptions C42_reduce_refuted.
Print Assumptions C42_integer_pad_refuted.
