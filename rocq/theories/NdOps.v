(** The NumPy primitives used by the array backends, by their documented index
    formulas (ein/backend/numpy_backend.py:17-123 names the calls). *)
From Verif Require Import Base Scalar Tensor.

(** Position of [k] in [l] (0 if absent; only used where it is present). *)
Definition pos (k : nat) (l : list nat) : nat :=
  match index_of k l with Some j => j | None => 0 end.

(** Keep the entries whose position is not in [axes]. *)
Fixpoint drop_at (axes : list nat) (p : nat) (l : list nat) : list nat :=
  match l with
  | [] => []
  | x :: l => if mem p axes then drop_at axes (S p) l else x :: drop_at axes (S p) l
  end.

(** [n] entries from position [p]: [v] at the positions of [axes], the entries
    of [l] in order elsewhere. *)
Fixpoint ins_at (axes : list nat) (v p n : nat) (l : list nat) : list nat :=
  match n with
  | 0 => []
  | S n =>
      if mem p axes then v :: ins_at axes v (S p) n l
      else match l with
           | [] => v :: ins_at axes v (S p) n []
           | x :: l => x :: ins_at axes v (S p) n l
           end
  end.

(** Is [pi] a permutation of 0..r-1? *)
Definition is_perm (pi : list nat) (r : nat) : bool :=
  (length pi =? r) && forallb (fun k => mem k pi) (seq 0 r).

Fixpoint nodupb (l : list nat) : bool :=
  match l with
  | [] => true
  | x :: l => negb (mem x l) && nodupb l
  end.

(** Broadcasting, right aligned: shapes are padded with 1 on the left. *)
Definition pad1 (n : nat) (sh : list nat) : list nat := repeat 1 (n - length sh) ++ sh.

Definition bdim (a b : nat) : option nat :=
  if a =? b then Some a else if a =? 1 then Some b else if b =? 1 then Some a else None.

Fixpoint zip_bdim (a b : list nat) : res (list nat) :=
  match a, b with
  | [], [] => Ok []
  | x :: a, y :: b =>
      let* d := of_opt EShape (bdim x y) in
      let* l := zip_bdim a b in Ok (d :: l)
  | _, _ => Err EShape
  end.

Fixpoint zip_all (n : nat) (l : list (list nat)) : res (list nat) :=
  match l with
  | [] => Ok (repeat 1 n)
  | s :: l => let* r := zip_all n l in zip_bdim (pad1 n s) r
  end.

Definition broadcast_shapes (l : list (list nat)) : res (list nat) :=
  zip_all (list_max (map (@length nat) l)) l.

(** Index into an operand of shape [sh] at position [idx] of the result. *)
Fixpoint bzip (sh idx : list nat) : list nat :=
  match sh, idx with
  | d :: sh, k :: idx => (if d =? 1 then 0 else k) :: bzip sh idx
  | _, _ => []
  end.
Definition bidx (sh idx : list nat) : list nat := bzip sh (skipn (length idx - length sh) idx).

(** Python slice bound normalisation, step 1, for an axis of [n] elements. *)
Definition slice_bound (z : Z) (n : nat) : nat :=
  let z' := if (z <? 0)%Z then (z + Z.of_nat n)%Z else z in
  Z.to_nat (Z.min (Z.max z' 0) (Z.of_nat n)).

Section NdOps.
Context {FO : FloatOps}.

Definition arank (a : arr) : nat := length (ashape a).

(** numpy.transpose(a, pi) (numpy_backend.py:38-41) *)
Definition nd_transpose (pi : list nat) (a : arr) : res arr :=
  let* _ := guard (is_perm pi (arank a)) EValue in
  Ok (tab (akind a) (map (fun p => nth p (ashape a) 0) pi)
        (fun idx => get a (map (fun k => nth (pos k pi) idx 0) (seq 0 (arank a))))).

(** numpy.expand_dims(a, axes) (numpy_backend.py:46-47); the axes are positions
    in the result. *)
Definition nd_unsqueeze (axes : list nat) (a : arr) : res arr :=
  let n := arank a + length axes in
  let* _ := guard (nodupb axes && forallb (fun k => k <? n) axes) EValue in
  Ok (tab (akind a) (ins_at axes 1 0 n (ashape a)) (fun idx => get a (drop_at axes 0 idx))).

(** numpy.squeeze(a, axes) (numpy_backend.py:43-44) *)
Definition nd_squeeze (axes : list nat) (a : arr) : res arr :=
  let* _ := guard (nodupb axes && forallb (fun k => (k <? arank a) && (nth k (ashape a) 0 =? 1)) axes)
                  EValue in
  Ok (tab (akind a) (drop_at axes 0 (ashape a))
        (fun idx => get a (ins_at axes 0 0 (arank a) idx))).

(** numpy.repeat(a, count, axis) (numpy_backend.py:74-77) *)
Definition nd_repeat (ax : nat) (count : Z) (a : arr) : res arr :=
  let* _ := guard (ax <? arank a) EValue in
  let* _ := guard (0 <=? count)%Z EValue in
  let n := Z.to_nat count in
  Ok (tab (akind a) (set_nth ax (nth ax (ashape a) 0 * n) (ashape a))
        (fun idx => get a (set_nth ax (nth ax idx 0 / n) idx))).

(** numpy.arange(n) (numpy_backend.py:32-33) *)
Definition nd_range (z : Z) : arr :=
  tab KInt [Z.to_nat z] (fun idx => SI (Z.of_nat (hd 0 idx))).

(** numpy.array(a.shape[axis]) (numpy_backend.py:29-30) *)
Definition nd_dim (ax : nat) (a : arr) : res arr :=
  let* d := of_opt EShape (nth_error (ashape a) ax) in
  Ok (ascalar (SI (Z.of_nat d))).

(** numpy.concatenate((a, b), axis) (numpy_backend.py:35-36).  NumPy promotes
    element kinds; operands of different kinds are an error here. *)
Definition nd_concat2 (ax : nat) (a b : arr) : res arr :=
  let* _ := guard (ax <? arank a) EValue in
  let* _ := guard (list_nat_eqb (set_nth ax 0 (ashape a)) (set_nth ax 0 (ashape b))) EValue in
  let* _ := guard (kind_eqb (akind a) (akind b)) EType in
  let n := nth ax (ashape a) 0 in
  Ok (tab (akind a) (set_nth ax (n + nth ax (ashape b) 0) (ashape a))
        (fun idx => let k := nth ax idx 0 in
                    if k <? n then get a idx else get b (set_nth ax (k - n) idx))).

Fixpoint nd_concat_from (ax : nat) (a : arr) (l : list arr) : res arr :=
  match l with
  | [] => Ok a
  | b :: l => let* c := nd_concat2 ax a b in nd_concat_from ax c l
  end.
Definition nd_concat (ax : nat) (l : list arr) : res arr :=
  match l with [] => Err EValue | a :: l => nd_concat_from ax a l end.

(** numpy.take_along_axis(a, numpy.clip(item, 0, a.shape[axis] - 1), axis)
    (numpy_backend.py:49-54).  The other axes of array and item broadcast against
    each other.  An empty axis raises IndexError when there is an item. *)
Definition int_of (s : scalar) : Z := match s with SI z => z | SB b => Z.b2z b | SF _ => 0 end.

Definition nd_gather (ax : nat) (a item : arr) : res arr :=
  let* _ := guard (ax <? arank a) EValue in
  let* _ := guard (arank a =? arank item) EValue in
  let* _ := guard (kind_eqb (akind item) KInt) EType in
  let n := nth ax (ashape a) 0 in
  let* _ := guard ((0 <? n) || (size_of (ashape item) =? 0)) EShape in
  let* sh := zip_bdim (set_nth ax 1 (ashape a)) (ashape item) in
  Ok (tab (akind a) sh
        (fun idx => get a (set_nth ax (clip (int_of (get item (bidx (ashape item) idx))) n)
                             (bidx (ashape a) idx)))).

(** [a[:, ..., numpy.clip(item, 0, n-1), :, ...]] with one index array at
    position [ax] (numpy_backend.py:56-64): the axis is replaced by the axes of
    the item. *)
Definition nd_take1 (ax : nat) (a item : arr) : res arr :=
  let* _ := guard (ax <? arank a) EValue in
  let* _ := guard (kind_eqb (akind item) KInt) EType in
  let n := nth ax (ashape a) 0 in
  let* _ := guard ((0 <? n) || (size_of (ashape item) =? 0)) EShape in
  let r := arank item in
  Ok (tab (akind a) (firstn ax (ashape a) ++ ashape item ++ skipn (S ax) (ashape a))
        (fun idx => get a (firstn ax idx ++
                           clip (int_of (get item (firstn r (skipn ax idx)))) n ::
                           skipn (ax + r) idx))).

(** [a[start0:stop0, start1:stop1, ...]] (numpy_backend.py:66-67) *)
Fixpoint slice_starts (sh : list nat) (l : list (option Z)) : list nat :=
  match sh, l with
  | n :: sh, z :: l =>
      match z with Some z => slice_bound z n | None => 0 end :: slice_starts sh l
  | _, _ => []
  end.
Fixpoint slice_stops (sh : list nat) (l : list (option Z)) : list nat :=
  match sh, l with
  | n :: sh, z :: l =>
      match z with Some z => slice_bound z n | None => n end :: slice_stops sh l
  | _, _ => []
  end.
Fixpoint zip_with (f : nat -> nat -> nat) (a b : list nat) : list nat :=
  match a, b with
  | x :: a, y :: b => f x y :: zip_with f a b
  | _, _ => []
  end.

Definition nd_slice (starts stops : list (option Z)) (a : arr) : res arr :=
  let* _ := guard ((length starts =? arank a) && (length stops =? arank a)) EValue in
  let lo := slice_starts (ashape a) starts in
  let hi := slice_stops (ashape a) stops in
  Ok (tab (akind a) (zip_with Nat.sub hi lo) (fun idx => get a (zip_with Nat.add idx lo))).

(** numpy.pad(a, pads, mode="edge") (numpy_backend.py:123) *)
Definition edge_sh (sh : list nat) (pads : list (Z * Z)) : list nat :=
  map (fun p => fst p + Z.to_nat (fst (snd p)) + Z.to_nat (snd (snd p))) (combine sh pads).
Fixpoint edge_idx (sh : list nat) (pads : list (Z * Z)) (idx : list nat) : list nat :=
  match sh, pads, idx with
  | n :: sh, (l, _) :: pads, k :: idx => clip (Z.of_nat k - l) n :: edge_idx sh pads idx
  | _, _, _ => []
  end.
Definition pads_ok (pads : list (Z * Z)) : bool :=
  forallb (fun p => (0 <=? fst p)%Z && (0 <=? snd p)%Z) pads.

Definition nd_edge_pad (a : arr) (pads : list (Z * Z)) : res arr :=
  let* _ := guard (length pads =? arank a) EValue in
  let* _ := guard (pads_ok pads) EValue in
  let* _ := guard (forallb (fun p => (0 <? fst p) || ((fst (snd p) =? 0)%Z && (snd (snd p) =? 0)%Z))
                     (combine (ashape a) pads)) EValue in
  Ok (tab (akind a) (edge_sh (ashape a) pads) (fun idx => get a (edge_idx (ashape a) pads idx))).

(** Elementwise ufuncs with broadcasting.  The kind of the result is looked up
    first; at kinds outside the signature NumPy would promote, here it is an
    error (the type checker excludes it). *)
Definition nd_ew (kf : list kind -> option kind) (sf : list scalar -> option scalar)
  (ops : list arr) : res arr :=
  let* sh := broadcast_shapes (map ashape ops) in
  let* k := of_opt EType (kf (map akind ops)) in
  Ok (tab k sh (fun idx =>
        match sf (map (fun a => get a (bidx (ashape a) idx)) ops) with
        | Some s => s
        | None => sjunk k
        end)).

Definition kf1 (f : kind -> option kind) (l : list kind) : option kind :=
  match l with [a] => f a | _ => None end.
Definition kf2 (f : kind -> kind -> option kind) (l : list kind) : option kind :=
  match l with [a; b] => f a b | _ => None end.
Definition kf3 (f : kind -> kind -> kind -> option kind) (l : list kind) : option kind :=
  match l with [a; b; c] => f a b c | _ => None end.
Definition sf1 (f : scalar -> option scalar) (l : list scalar) : option scalar :=
  match l with [a] => f a | _ => None end.
Definition sf2 (f : scalar -> scalar -> option scalar) (l : list scalar) : option scalar :=
  match l with [a; b] => f a b | _ => None end.
Definition sf3 (f : scalar -> scalar -> scalar -> option scalar) (l : list scalar) : option scalar :=
  match l with [a; b; c] => f a b c | _ => None end.

Definition nd_un (o : uop) (a : arr) : res arr := nd_ew (kf1 (kind_un o)) (sf1 (sem_un o)) [a].
Definition nd_bin (o : bop) (a b : arr) : res arr := nd_ew (kf2 (kind_bin o)) (sf2 (sem_bin o)) [a; b].
Definition nd_where (c a b : arr) : res arr := nd_ew (kf3 kind_where) (sf3 sem_where) [c; a; b].

(** a.astype(float) (numpy_backend.py:141-143): the only conversion the
    compiler emits is to float (phi_to_yarr.py:266-270). *)
Definition to_float (s : scalar) : scalar :=
  match s with
  | SB b => SF (f_of_Z (Z.b2z b))
  | SI z => SF (f_of_Z z)
  | SF f => SF f
  end.
Definition nd_cast (k : kind) (a : arr) : res arr :=
  match k with
  | KFloat => Ok (tab KFloat (ashape a) (fun idx => to_float (get a idx)))
  | _ => if kind_eqb k (akind a) then Ok a else Err EType
  end.

(** ufunc.reduce(a, axis) (numpy_backend.py:137-140): a left fold of the axis.
    NumPy may sum in another order (pairwise); the theorems that use this one
    assume an associative and commutative operation, for which the order is
    immaterial.  An empty axis gives 0 for add and raises for minimum/maximum. *)
Inductive rop : Type := RAdd | RMin | RMax.
Definition rop_bop (r : rop) : bop := match r with RAdd => BAdd | RMin => BMin | RMax => BMax end.

Definition sbin (o : bop) (k : kind) (a b : scalar) : scalar :=
  match sem_bin o a b with Some s => s | None => sjunk k end.
Definition szero (k : kind) : scalar :=
  match k with KFloat => SF (f_of_Z 0) | _ => SI 0 end.

Definition ins_nth (ax k : nat) (idx : list nat) : list nat := firstn ax idx ++ k :: skipn ax idx.
Definition del_nth (ax : nat) (l : list nat) : list nat := firstn ax l ++ skipn (S ax) l.

Definition nd_reduce (r : rop) (ax : nat) (a : arr) : res arr :=
  let* _ := guard (ax <? arank a) EValue in
  let* k := of_opt EType (kind_bin (rop_bop r) (akind a) (akind a)) in
  let n := nth ax (ashape a) 0 in
  let* _ := guard ((0 <? n) || match r with RAdd => true | _ => false end) EValue in
  Ok (tab k (del_nth ax (ashape a))
        (fun idx =>
           match n with
           | 0 => szero k
           | S n => fold_left (fun s j => sbin (rop_bop r) k s (get a (ins_nth ax j idx)))
                      (seq 1 n) (get a (ins_nth ax 0 idx))
           end)).

(** [a[:, ..., l, ...]]: pick positions along an axis. *)
Definition nd_pick (ax : nat) (l : list nat) (a : arr) : res arr :=
  let* _ := guard (ax <? arank a) EValue in
  let* _ := guard (forallb (fun k => k <? nth ax (ashape a) 0) l) EShape in
  Ok (tab (akind a) (set_nth ax (length l) (ashape a))
        (fun idx => get a (set_nth ax (nth (nth ax idx 0) l 0) idx))).

(** numpy.einsum with explicit output.  Subscripts are lists of letters; a
    letter's size is the size of the axes it labels. *)
Definition esubs : Type := (list (list nat) * list nat)%type.

Definition letter_sizes (s : esubs) (ops : list arr) : list (nat * nat) :=
  flat_map (fun p => combine (fst p) (ashape (snd p))) (combine (fst s) ops).
Definition letter_size (ls : list (nat * nat)) (c : nat) : nat :=
  match find (fun p => fst p =? c) ls with Some p => snd p | None => 0 end.
Fixpoint dedup (l : list nat) : list nat :=
  match l with
  | [] => []
  | x :: l => if mem x l then dedup l else x :: dedup l
  end.

Definition fprod (l : list F) : F :=
  match l with [] => f_of_Z 1 | x :: l => fold_left fmul l x end.
Definition fsum (l : list F) : F :=
  match l with [] => f_of_Z 0 | x :: l => fold_left fadd l x end.
Definition float_of (s : scalar) : F :=
  match to_float s with SF f => f | _ => fjunk end.

Definition nd_einsum (s : esubs) (ops : list arr) : res arr :=
  let* _ := guard (length (fst s) =? length ops) EValue in
  let* _ := guard (forallb (fun p => length (fst p) =? arank (snd p)) (combine (fst s) ops)) EValue in
  let ls := letter_sizes s ops in
  let* _ := guard (forallb (fun p => snd p =? letter_size ls (fst p)) ls) EValue in
  let* _ := guard (forallb (fun c => mem c (map fst ls)) (snd s)) EValue in
  let* _ := guard (nodupb (snd s)) EValue in
  let* _ := guard (forallb (fun a => kind_eqb (akind a) KFloat) ops) EType in
  let inner := filter (fun c => negb (mem c (snd s))) (dedup (map fst ls)) in
  Ok (tab KFloat (map (letter_size ls) (snd s))
        (fun idx =>
           SF (fsum (map (fun jdx =>
             let at_letter c := nth (pos c (snd s ++ inner)) (idx ++ jdx) 0 in
             fprod (map (fun p => float_of (get (snd p) (map at_letter (fst p))))
                        (combine (fst s) ops)))
             (all_idx (map (letter_size ls) inner)))))).

End NdOps.
