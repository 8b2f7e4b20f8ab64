(** ein/codegen/axial.py: arrays with named leading axes. *)
From Verif Require Import Base Scalar Tensor Types Sym Phi Den NdOps Yarr.

Section Axial.
Context {FO : FloatOps}.

(** axial.py:36-38 *)
Record axial : Type := mkAxial { ax_axes : list nat; ax_expr : yarr }.

(** axial.py:39-43 [Axial.__init__].  The types of the nodes of [y] are checked
    when they are built (yarr.py:32-33), which [ytyp] repeats here. *)
Definition mk_axial (axes : list nat) (y : yarr) : res axial :=
  let* _ := guard (nodupb axes) EAssert in
  let* p := ytyp y in
  let* _ := guard (forallb (fun q => length axes <=? fst q) p) EAssert in
  Ok (mkAxial axes y).

(** [expr.type.single.rank] *)
Definition erank (y : yarr) : res nat :=
  let* p := ytyp y in let* s := single p in Ok (fst s).

(** axial.py:48-50 [positional_axis] *)
Definition positional_axis (a : axial) (axis : nat) : res nat :=
  let* r := erank (ax_expr a) in
  let* _ := guard (length (ax_axes a) + axis <? r) EAssert in
  Ok (length (ax_axes a) + axis).

(** axial.py:57-60 [normal] *)
Definition normal (a : axial) : res yarr :=
  match ax_axes a with [] => Ok (ax_expr a) | _ => Err EAssert end.

(** [pi[i], pi[j] = pi[j], pi[i]] on [range(r)] *)
Definition swap_perm (r i j : nat) : list nat :=
  map (fun k => if k =? i then j else if k =? j then i else k) (seq 0 r).

(** axial.py:62-77 [along] *)
Definition along (a : axial) (index : nat) (size : yarr) : res axial :=
  let axes := ax_axes a in
  let* r := erank (ax_expr a) in
  let* _ := guard (length axes <=? r) EAssert in
  let j := length axes in
  match index_of index axes with
  | Some i =>
      let pi := swap_perm r i (j - 1) in
      mk_axial (map (fun k => nth (nth k pi 0) axes 0) (seq 0 (j - 1)))
               (YTranspose pi (ax_expr a))
  | None => mk_axial axes (YRepeat j size (YUnsqueeze [j] (ax_expr a)))
  end.

(** axial.py:79-83 [within], for one binding (the only use, phi_to_yarr.py:70) *)
Definition within (a : axial) (x : nat) (b : yarr) : res axial :=
  mk_axial (ax_axes a) (YLet x b (ax_expr a)).

(** axial.py:26-27 *)
Definition tuple_maybe_singleton (l : list yarr) : yarr :=
  match l with [y] => y | _ => YTuple l end.
(** axial.py:30-32; [k] is the number of components of [y] *)
Definition untuple_maybe_singleton (k : nat) (y : yarr) (at_ : nat) : yarr :=
  if k =? 1 then y else YUntuple at_ k y.

(** axial.py:137-144 [_alignment] *)
Fixpoint align_add (seen axes : list nat) : list nat :=
  match axes with
  | [] => seen
  | x :: axes => align_add (if mem x seen then seen else seen ++ [x]) axes
  end.
Definition alignment (args : list (list nat)) : list nat := fold_left align_add args [].

(** axial.py:161: [enumerate(into_axes)] without the axes that are present *)
Fixpoint expands_from (axes : list nat) (p : nat) (into : list nat) : list (nat * nat) :=
  match into with
  | [] => []
  | x :: into => if mem x axes then expands_from axes (S p) into
                 else (p, x) :: expands_from axes (S p) into
  end.

(** axial.py:162-164 *)
Fixpoint strip_expands (fuel : nat) (l : list (nat * nat)) : list (nat * nat) :=
  match fuel, l with
  | S fuel, (0, _) :: l => strip_expands fuel (map (fun p => (fst p - 1, snd p)) l)
  | _, _ => l
  end.

(** axial.py:167-169 *)
Fixpoint add_repeats (repeats : list (nat * yarr)) (l : list (nat * nat)) (y : yarr) : yarr :=
  match l with
  | [] => y
  | (i, x) :: l =>
      add_repeats repeats l
        (match assoc x repeats with Some n => YRepeat i n y | None => y end)
  end.

(** axial.py:147-170 [_align].  Sorting duplicate-free axes by their position in
    [into] leaves the elements of [into] that are among the axes;
    [into_axes.index] raises if one is missing. *)
Definition align (y : yarr) (axes into : list nat) (leftpad : bool) (repeats : list (nat * yarr))
  : res yarr :=
  let* _ := guard (length axes <=? length into) EAssert in
  let* _ := guard (forallb (fun x => mem x into) axes) EValue in
  let free_pi := map (fun x => pos x axes) (filter (fun x => mem x axes) into) in
  let* r := erank y in
  let pi := free_pi ++ seq (length axes) (r - length axes) in
  let expands := expands_from axes 0 into in
  let expands := if leftpad then expands else strip_expands (length expands) expands in
  Ok (add_repeats repeats expands (YUnsqueeze (map fst expands) (YTranspose pi y))).

(** axial.py:109-134 [aligned] *)
Definition aligned (a : axial) (into : list nat) (leftpad : bool) (repeats : list (nat * yarr))
  : res yarr :=
  let* p := ytyp (ax_expr a) in
  let k := length p in
  if k =? 1 then align (ax_expr a) (ax_axes a) into leftpad repeats
  else let* l := mapM (fun i => align (YUntuple i k (ax_expr a)) (ax_axes a) into leftpad repeats)
                      (seq 0 k) in
       Ok (YTuple l).

(** axial.py:85-97 [cons] *)
Definition cons_axial (a b : axial) : res axial :=
  let* p := ytyp (ax_expr a) in
  let* q := ytyp (ax_expr b) in
  let axes := alignment [ax_axes a; ax_axes b] in
  let* x := aligned a axes true [] in
  let* y := aligned b axes true [] in
  mk_axial axes
    (tuple_maybe_singleton
       (map (untuple_maybe_singleton (length p) x) (seq 0 (length p)) ++
        map (untuple_maybe_singleton (length q) y) (seq 0 (length q)))).

(** axial.py:99-107 [slice_tuple] *)
Definition slice_tuple (a : axial) (start stop : nat) : res axial :=
  let* p := ytyp (ax_expr a) in
  let k := length p in
  let* _ := guard ((start <=? stop) && (stop <=? k)) EAssert in
  mk_axial (ax_axes a)
    (tuple_maybe_singleton (map (untuple_maybe_singleton k (ax_expr a)) (seq start (stop - start)))).

End Axial.
