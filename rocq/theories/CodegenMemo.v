(** ein/codegen/phi_to_yarr.py:36-304 and array_indexing.py:66-109 with the table
    [transformed] of terms translated before (phi_to_yarr.py:36, 297-304). *)
From Verif Require Import Base Scalar Tensor Types Sym Phi Den Term PhiTerm DenFree SpecPhi Lining
  Sizes ClipShift NdOps Yarr Axial Codegen.

Section Memo.
Context {FO : FloatOps}.
Variable fl : flags.
Variable orc : oracle.

(** [transformed: dict[phi.Expr, Axial]]; terms are compared by structure
    (term.py:8-20 interns them). *)
Definition memo : Type := list (phi * axial).
Fixpoint recall (m : memo) (e : phi) : option axial :=
  match m with
  | [] => None
  | (e', a) :: m => if phi_eqb e e' then Some a else recall m e
  end.

(** A computation that reads and extends the table. *)
Definition tab (A : Type) : Type := memo -> res (A * memo).
Definition tret {A} (r : res A) : tab A := fun m => let* a := r in Ok (a, m).
Definition tbind {A B} (c : tab A) (k : A -> tab B) : tab B :=
  fun m => let* p := c m in k (fst p) (snd p).
(** The table is put back as it was (phi_to_yarr.py:170-177, 201-206). *)
Definition forgetting {A} (c : tab A) : tab A := fun m => let* p := c m in Ok (fst p, m).
Fixpoint tmapM {A B} (f : A -> tab B) (l : list A) : tab (list B) :=
  match l with
  | [] => tret (Ok [])
  | x :: l => tbind (f x) (fun y => tbind (tmapM f l) (fun ys => tret (Ok (y :: ys))))
  end.
Notation "'do*' x ':=' c 'in' k" := (tbind c (fun x => k)) (at level 200, x name, c at level 100, k at level 200).
Notation "'do=' x ':=' r 'in' k" := (tbind (tret r) (fun x => k)) (at level 200, x name, r at level 100, k at level 200).

(** array_indexing.py:66-109, as [transform_get] *)
Definition mtransform_get (rec : phi -> tab axial) (idxs : idx_sizes) (target_ item_ : phi) : tab axial :=
  do* target := rec target_ in
  do= rank := erank (ax_expr target) in
  let others :=
    do* item := rec item_ in
    if use_takes fl && forallb (fun x => negb (mem x (ax_axes item))) (ax_axes target) then
      do= p := positional_axis target 0 in
      tret (mk_axial (ax_axes target ++ ax_axes item)
               (YTake (ax_expr target) (put_at rank p (ax_expr item))))
    else tret (general_get target item) in
  if use_slice_pads fl then
    match match_index_clipped_shift item_ with
    | Some (index, (shift, low, high)) =>
        if smem (SX index) (free_indices target_) then others
        else
          let axes := ax_axes target ++ [index] in
          let dim := dim_of target_ 0 in
          if use_slice_elision fl && (is_none shift && is_none low && is_none high)
             && eq_index orc index dim
          then tret (mk_axial axes (ax_expr target))
          else
            do= size := of_opt EUnbound (assoc index idxs) in
            do* d := rec dim in
            do= d := normal d in
            do= p := positional_axis target 0 in
            let opt (o : option phi) (dflt : yarr) : tab yarr :=
              match o with
              | Some e => do* a := rec e in tret (normal a)
              | None => tret (Ok dflt)
              end in
            do* sh := opt shift (yint 0) in
            do* lo := opt low (yint 0) in
            do* hi := opt high (ybin BSub d (yint 1)) in
            do= y := pad_slice_get (ax_expr target) p sh lo hi size in
            tret (mk_axial axes y)
    | None => others
    end
  else others.

(** phi_to_yarr.py:399-428, as [match_reduction] *)
Definition mmatch_reduction (rec : phi -> tab axial) (index : nat) (c : nat) (size : phi) (acc : nat)
  (init body : phi) : tab (option axial) :=
  do= ti := typ init in
  if negb (ty_eqb ti (TScalar KFloat)) || negb (is_nil (free_indices init)) then tret (Ok None)
  else
    match match_reduction_by_body body acc with
    | None => tret (Ok None)
    | Some (elem, r) =>
        if negb (considerate orc (psize elem) c size elem) then tret (Ok None)
        else
          do= _ := guard (negb (strict fl) || negb (smem (SV acc) (fsyms elem))) EAssert in
          let vec_expr := PVec index size (substitute elem [(SV c, p_at index)]) in
          do= _ := typ vec_expr in
          do* vec := rec vec_expr in
          do= p := positional_axis vec 0 in
          do* i := rec init in
          do= i := normal i in
          do= a := mk_axial (ax_axes vec)
                     (ybin (rop_bop r) i (YReduceAxis r p (ax_expr vec))) in
          tret (Ok (Some a))
    end.

(** phi_to_yarr.py:97-132, as [go_product] *)
Definition mgo_product (rec : idx_sizes -> phi -> tab axial) (idxs : idx_sizes)
  (contract : list (nat * phi)) (realised : list (nat * nat)) (sum_axes : idx_sizes)
  (args : list phi) : tab (option axial) :=
  if negb (forallb (fun p => forallb (fun e => considerate orc (psize e) (fst p) (snd p) e) args) contract)
  then tret (Ok None)
  else
    let sb := map (fun p => (SV (fst p), p_at (snd p))) realised in
    let with_realised := map (fun e => substitute e sb) args in
    do= _ := mapM typ with_realised in
    do* ops := tmapM (rec (sum_axes ++ idxs)) with_realised in
    let operand_axes := map ax_axes ops in
    do= _ := guard (negb (strict fl) ||
                    forallb (fun p => negb (existsb (fun e => smem (SV (fst p)) (fsyms e)) args) ||
                                      mem (snd p) (concat operand_axes)) realised) EAssert in
    do= _ := guard (negb (strict fl) ||
                    forallb (fun p => forallb (fun e => negb (smem (SV (fst p)) (bsyms e))) args) realised) EAssert in
    let result_axes := filter (fun x => negb (mem x (map fst sum_axes))) (alignment operand_axes) in
    do= s := to_einsum_subs operand_axes result_axes in
    do= a := mk_axial result_axes (YEinsum s (map ax_expr ops)) in
    tret (Ok (Some a)).

(** phi_to_yarr.py:134-140, as [go_products] *)
Fixpoint mgo_products (f : list phi -> tab (option axial)) (l : list (list phi)) : tab (option (list axial)) :=
  match l with
  | [] => tret (Ok (Some []))
  | p :: l =>
      do* a := f p in
      match a with
      | None => tret (Ok None)
      | Some a => do* r := mgo_products f l in tret (Ok (option_map (cons a) r))
      end
  end.

(** phi_to_yarr.py:80-155, as [einsum_fold].  An attempt that is given up leaves
    what it translated in the table. *)
Definition meinsum_fold (rec : idx_sizes -> phi -> tab axial) (idxs : idx_sizes) (vax : var_axes)
  (e : phi) : tab (option axial) :=
  do= d := lift e in
  if is_nil (contract d) || negb (existsb (fun p => 1 <? length p) (products d)) then tret (Ok None)
  else
    let i0 := fresh_index idxs vax e in
    let realised := combine (map fst (contract d)) (seq i0 (length (contract d))) in
    do* sizes := tmapM (fun p => do* a := rec idxs (snd p) in tret (normal a)) (contract d) in
    let sum_axes := combine (seq i0 (length (contract d))) sizes in
    do* summands := mgo_products (mgo_product rec idxs (contract d) realised sum_axes) (products d) in
    match summands with
    | None => tret (Ok None)
    | Some ops =>
        do= _ := guard (negb (strict fl) || lift_sound e) EAssert in
        let used := alignment (map ax_axes ops) in
        do= ys := mapM (fun op => aligned op used false []) ops in
        match ys with
        | [] => tret (Err EType)
        | y :: ys => do= a := mk_axial used (fold_left (ybin BAdd) ys y) in tret (Ok (Some a))
        end
    end.

(** phi_to_yarr.py:41-295, as [go]; [rec] is phi_to_yarr.py:297-304. *)
Definition mgo_ (rec : idx_sizes -> var_axes -> phi -> tab axial) (idxs : idx_sizes) (vax : var_axes)
  (e : phi) : tab axial :=
  match e with
  | PConst a => tret (mk_axial [] (YConst a))
  | PStore (SX i) _ =>
      do= s := of_opt EUnbound (assoc i idxs) in tret (mk_axial [i] (YRange s))
  | PStore (SV x) t =>
      let axes := axes_of vax x in
      do= p := primitive_type t in
      tret (mk_axial axes (YVar x (rank_up (length axes) p)))
  | PLet x b body =>
      do* a := rec idxs vax b in
      do* r := rec idxs ((x, ax_axes a) :: vax) body in
      tret (within r x (ax_expr a))
  | PAssertEq t _ => rec idxs vax t
  | PDim t k =>
      do* a := rec idxs vax t in
      do= p := positional_axis a k in
      tret (mk_axial [] (YDim p (ax_expr a)))
  | PFold c size acc init body =>
      do* ein := (if use_einsum fl
                  then meinsum_fold (fun is_ t => rec is_ vax t) idxs vax e else tret (Ok None)) in
      match ein with
      | Some a => tret (Ok a)
      | None =>
          do* red := (if use_reductions fl
                      then mmatch_reduction (rec idxs vax) (new_index orc idxs vax e)
                             c size acc init body
                      else tret (Ok None)) in
          match red with
          | Some a => tret (Ok a)
          | None =>
              do* s := rec idxs vax size in
              do= s := normal s in
              do* i := rec idxs vax init in
              do* b0 := forgetting (rec idxs ((acc, ax_axes i) :: vax) body) in
              let acc_axes := ax_axes b0 in
              do* b := rec idxs ((acc, acc_axes) :: vax) body in
              do= _ := guard (negb (strict fl) || (same_axes (ax_axes b) acc_axes && covers idxs acc_axes i)) EAssert in
              do= yi := aligned i acc_axes true idxs in
              do= yb := aligned b acc_axes true [] in
              tret (mk_axial acc_axes (YFold c s acc yi yb))
          end
      end
  | PReduce init x y xy vecs =>
      do* i := rec idxs vax init in
      do* vs := tmapM (rec idxs vax) vecs in
      let some_axes := alignment (ax_axes i :: map ax_axes vs) in
      do* b0 := forgetting (rec idxs ((x, some_axes) :: (y, some_axes) :: vax) xy) in
      let axes := ax_axes b0 in
      let xy_axes := axes ++ [new_index orc idxs ((x, axes) :: vax) e] in
      do* b := rec idxs ((x, xy_axes) :: (y, xy_axes) :: vax) xy in
      do= _ := guard (negb (strict fl) ||
                      (axes_eqb (ax_axes b) xy_axes && forallb (covers idxs axes) (i :: vs))) EAssert in
      do= yi := aligned i axes true idxs in
      do= ys := mapM (fun v => aligned v axes true idxs) vs in
      let yv := match ys with [y] => y | _ => YTuple ys end in
      tret (mk_axial axes (YReduce yi x y (ax_expr b) yv (length axes)))
  | PGet t i => mtransform_get (rec idxs vax) idxs t i
  | PConcat a b =>
      do* x := rec idxs vax a in
      do* y := rec idxs vax b in
      let used := alignment [ax_axes x; ax_axes y] in
      do= _ := guard (negb (strict fl) || (covers idxs used x && covers idxs used y)) EAssert in
      do= x' := aligned x used true idxs in
      do= y' := aligned y used true idxs in
      tret (mk_axial used (YConcat [x'; y'] (length used)))
  | PVec i size body =>
      do* s := rec idxs vax size in
      do= s := normal s in
      do* b := rec ((i, s) :: idxs) vax body in
      tret (along b i s)
  | PUn UFloat a =>
      do* x := rec idxs vax a in
      tret (mk_axial (ax_axes x) (YCast KFloat (ax_expr x)))
  | PUn o a =>
      do* x := rec idxs vax a in
      let used := alignment [ax_axes x] in
      do= x' := aligned x used false [] in
      tret (mk_axial used (YUn o x'))
  | PBin o a b =>
      do* x := rec idxs vax a in
      do* y := rec idxs vax b in
      let used := alignment [ax_axes x; ax_axes y] in
      do= x' := aligned x used false [] in
      do= y' := aligned y used false [] in
      tret (mk_axial used (YBin o x' y' None))
  | PWhere c a b =>
      do* z := rec idxs vax c in
      do* x := rec idxs vax a in
      do* y := rec idxs vax b in
      let used := alignment [ax_axes z; ax_axes x; ax_axes y] in
      do= z' := aligned z used false [] in
      do= x' := aligned x used false [] in
      do= y' := aligned y used false [] in
      tret (mk_axial used (YWhere z' x' y'))
  | PCons a b =>
      do* x := rec idxs vax a in
      do* y := rec idxs vax b in
      do= _ := guard (negb (strict fl) || same_axes (ax_axes x) (ax_axes y)) EAssert in
      tret (cons_axial x y)
  | PFirst t =>
      do= ty := typ t in
      match ty with
      | TPair t1 _ =>
          do= p := primitive_type t1 in
          do* x := rec idxs vax t in
          tret (slice_tuple x 0 (length p))
      | _ => tret (Err EAssert)
      end
  | PSecond t =>
      do= ty := typ t in
      match ty with
      | TPair t1 t2 =>
          do= p := primitive_type t1 in
          do= q := primitive_type t2 in
          do* x := rec idxs vax t in
          tret (slice_tuple x (length p) (length p + length q))
      | _ => tret (Err EAssert)
      end
  | PExt t f ops =>
      do* xs := tmapM (rec idxs vax) ops in
      let used := alignment (map ax_axes xs) in
      do= _ := guard (negb (strict fl) || is_nil used) EAssert in
      do= ys := mapM (fun x => aligned x used false []) xs in
      do= p := primitive_type t in
      tret (mk_axial used (YExt (rank_up (length used) p) f ys))
  end.

(** phi_to_yarr.py:297-304 [go] *)
Fixpoint mgo (fuel : nat) (idxs : idx_sizes) (vax : var_axes) (e : phi) {struct fuel} : tab axial :=
  match fuel with
  | 0 => tret (Err EFuel)
  | S fuel => fun m =>
      match recall m e with
      | Some a => Ok (a, m)
      | None =>
          let* p := mgo_ (mgo fuel) idxs vax e m in
          Ok (fst p, (e, fst p) :: snd p)
      end
  end.

(** phi_to_yarr.py:308-310 *)
Definition mlower (fuel : nat) (e : phi) : res yarr :=
  let* p := mgo fuel [] [] e [] in normal (fst p).
End Memo.
