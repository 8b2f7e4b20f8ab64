(** The library functions of any number of arguments: [concat], [min] and [max]
    (ein/frontend/std.py:25-26, 49-54). *)
From Verif Require Import Base Scalar Tensor Types Sym Phi Den Layout Comprehension.

Section Varargs.
Context {FO : FloatOps} {EX : Externs}.

(** std.py:25-26 *)
Fixpoint std_concat (arg : obj) (args : list obj) : res obj :=
  match args with
  | [] => Ok arg
  | a :: args => let* r := std_concat a args in vec_concat arg r
  end.

(** functools.reduce of [a.min(b)] or [a.max(b)] (std.py:42-43, ndarray.py:348-352)
    from the left; only scalars have these methods. *)
Fixpoint extremum_go (o : bop) (e : phi) (l : layout) (ws : list (phi * layout)) : res obj :=
  match ws with
  | [] => Ok (OArr e l)
  | w :: ws =>
      let* _ := guard (layout_eqb l LAtom) EType in
      let* q := mk (PBin o e (fst w)) in
      extremum_go o q LAtom ws
  end.

(** std.py:49-54 ([o] is [BMin] or [BMax]); functools.reduce refuses an empty
    sequence. *)
Definition std_extremum (o : bop) (args : list obj) : res obj :=
  let* ws := mapM wrap args in
  match ws with [] => Err EType | w :: ws => extremum_go o (fst w) (snd w) ws end.

End Varargs.
