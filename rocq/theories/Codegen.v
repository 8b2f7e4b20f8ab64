(** ein/codegen/phi_to_yarr.py:25-314 and ein/codegen/array_indexing.py:66-180:
    translation of Phi terms to array code. *)
From Verif Require Import Base Scalar Tensor Types Sym Phi Den Term PhiTerm DenFree SpecPhi Lining
  Sizes ClipShift NdOps Yarr Axial.

Section Codegen.
Context {FO : FloatOps}.

(** The size classes (midend/size_classes.py) as an oracle: is the size of an
    index equal to a size expression (array_indexing.py:86), are two size
    expressions equal (phi_to_yarr.py:364).  The union-find only grows during
    compilation (phi_to_yarr.py:109-117, 419-422); the oracle is its final
    state.  [name_of]: the number of the [Index()] made for a fold or reduction
    (phi_to_yarr.py:208, 416). *)
Record oracle : Type := mkOracle {
  eq_index : nat -> phi -> bool;
  eq_size : phi -> phi -> bool;
  name_of : phi -> nat
}.

(** phi_to_yarr.py:25-35, and [strict], which is not in the code: with it the
    translation also fails where the code relies on unchecked assumptions about
    axes (see [guard (negb (strict fl) || ...)] below). *)
Record flags : Type := mkFlags {
  use_takes : bool;
  use_slice_pads : bool;
  use_slice_elision : bool;
  use_reductions : bool;
  use_einsum : bool;
  strict : bool
}.

Variable fl : flags.
Variable orc : oracle.

Definition idx_sizes : Type := list (nat * yarr).
Definition var_axes : Type := list (nat * list nat).

Definition axes_of (vax : var_axes) (x : nat) : list nat :=
  match assoc x vax with Some l => l | None => [] end.

Definition yint (z : Z) : yarr := YConst (ascalar (SI z)).
Definition ybin (o : bop) (a b : yarr) : yarr := YBin o a b None.

(** array_indexing.py:112-113 [_put_at] *)
Definition put_at {A} (n p : nat) (x : A) : list (option A) :=
  repeat None p ++ Some x :: repeat None (n - p - 1).

(** array_indexing.py:116-155 [pad_slice_get] *)
Definition is_int0 (y : yarr) : bool :=
  match ytyp y with Ok [(0, KInt)] => true | _ => false end.

Definition pad_slice_get (target : yarr) (axis : nat) (shift low high size : yarr) : res yarr :=
  let* r := erank target in
  let* _ := guard (axis <? r) EAssert in
  let* _ := guard (forallb is_int0 [shift; low; high; size]) EAssert in
  let start := ybin BMin (ybin BMax shift low) high in
  let stop := ybin BAdd
                (ybin BMin (ybin BMax (ybin BSub (ybin BAdd shift size) (yint 1)) low) high)
                (yint 1) in
  let left := ybin BMin (ybin BMax (ybin BSub low shift) (yint 0)) (ybin BSub size (yint 1)) in
  let right := ybin BSub (ybin BSub size (ybin BSub stop start)) left in
  Ok (YPad (YSlice target (put_at r axis start) (put_at r axis stop))
           (put_at r axis left) (put_at r axis right)).

(** array_indexing.py:158-177 [general_get] *)
Definition general_get (target item : axial) : res axial :=
  let axes := alignment [ax_axes item; ax_axes target] in
  let k := length axes in
  let* r := erank (ax_expr target) in
  let* t := aligned target axes true [] in
  let* i := aligned item axes true [] in
  mk_axial axes
    (YSqueeze [k] (YGather k t (YUnsqueeze (seq k (r - length (ax_axes target))) i))).

Definition is_none {A} (o : option A) : bool := match o with None => true | Some _ => false end.

(** array_indexing.py:66-109 [transform_get]; [rec] is [go] in the current
    context. *)
Definition transform_get (rec : phi -> res axial) (idxs : idx_sizes) (target_ item_ : phi)
  : res axial :=
  let* target := rec target_ in
  let* rank := erank (ax_expr target) in
  let others :=
    let* item := rec item_ in
    if use_takes fl && forallb (fun x => negb (mem x (ax_axes item))) (ax_axes target) then
      let* p := positional_axis target 0 in
      mk_axial (ax_axes target ++ ax_axes item)
               (YTake (ax_expr target) (put_at rank p (ax_expr item)))
    else general_get target item in
  if use_slice_pads fl then
    match match_index_clipped_shift item_ with
    | Some (index, (shift, low, high)) =>
        if smem (SX index) (free_indices target_) then others
        else
          let axes := ax_axes target ++ [index] in
          let dim := dim_of target_ 0 in
          if use_slice_elision fl && (is_none shift && is_none low && is_none high)
             && eq_index orc index dim
          then mk_axial axes (ax_expr target)
          else
            let* size := of_opt EUnbound (assoc index idxs) in
            let* d := rec dim in
            let* d := normal d in
            let* p := positional_axis target 0 in
            let opt (o : option phi) (dflt : yarr) :=
              match o with
              | Some e => let* a := rec e in normal a
              | None => Ok dflt
              end in
            let* sh := opt shift (yint 0) in
            let* lo := opt low (yint 0) in
            let* hi := opt high (ybin BSub d (yint 1)) in
            let* y := pad_slice_get (ax_expr target) p sh lo hi size in
            mk_axial axes y
    | None => others
    end
  else others.

(** A number no index in sight has: [Index()] is globally fresh in Python. *)
Definition idx_nums (l : list sym) : list nat :=
  flat_map (fun s => match s with SX i => [i] | SV _ => [] end) l.
Definition used_indices (idxs : idx_sizes) (vax : var_axes) (e : phi) : list nat :=
  map fst idxs ++ flat_map snd vax ++ idx_nums (fsyms e ++ bsyms e).
Definition fresh_index (idxs : idx_sizes) (vax : var_axes) (e : phi) : nat :=
  S (list_max (used_indices idxs vax e)).
(** The same, preferring the given name. *)
Definition new_index (idxs : idx_sizes) (vax : var_axes) (e : phi) : nat :=
  if mem (name_of orc e) (used_indices idxs vax e) then fresh_index idxs vax e else name_of orc e.

(** phi_to_yarr.py:347-378 [would_be_memory_considerate_axis]: is the flag [ok]
    left standing? *)
Fixpoint considerate (fuel : nat) (c : nat) (size e : phi) : bool :=
  match fuel with
  | 0 => false
  | S fuel =>
      if negb (smem (SV c) (fsyms e)) then true
      else
        negb (1 <? length (filter (fun s => smem (SV c) (fsyms s)) (subterms e))) &&
        match e with
        | PGet t i =>
            if smem (SV c) (fsyms i) && is_nil (free_indices i) && eq_size orc size (PDim t 0)
            then considerate fuel c size t
            else forallb (considerate fuel c size) (subterms e)
        | PStore s _ => negb (sym_eqb s (SV c))
        | _ => forallb (considerate fuel c size) (subterms e)
        end
  end.

(** phi_to_yarr.py:381-396 [match_reduction_by_body] *)
Definition is_store (x : nat) (e : phi) : bool :=
  match e with PStore s _ => sym_eqb s (SV x) | _ => false end.
Definition match_reduction_by_body (body : phi) (acc : nat) : option (phi * rop) :=
  match body with
  | PBin o a b =>
      match (match o with BAdd => Some RAdd | BMin => Some RMin | BMax => Some RMax | _ => None end) with
      | Some r =>
          if is_store acc a then Some (b, r)
          else if is_store acc b then Some (a, r) else None
      | None => None
      end
  | _ => None
  end.

(** phi_to_yarr.py:399-428 [match_reduction]: [Ok None] is None. *)
Definition match_reduction (rec : phi -> res axial) (index : nat) (c : nat) (size : phi) (acc : nat)
  (init body : phi) : res (option axial) :=
  let* ti := typ init in
  if negb (ty_eqb ti (TScalar KFloat)) || negb (is_nil (free_indices init)) then Ok None
  else
    match match_reduction_by_body body acc with
    | None => Ok None
    | Some (elem, r) =>
        if negb (considerate (psize elem) c size elem) then Ok None
        else
          let* _ := guard (negb (strict fl) || negb (smem (SV acc) (fsyms elem))) EAssert in
          let vec_expr := PVec index size (substitute elem [(SV c, p_at index)]) in
          let* _ := typ vec_expr in
          let* vec := rec vec_expr in
          let* p := positional_axis vec 0 in
          let* i := rec init in
          let* i := normal i in
          let* a := mk_axial (ax_axes vec)
                      (ybin (rop_bop r) i (YReduceAxis r p (ax_expr vec))) in
          Ok (Some a)
    end.

(** phi_to_yarr.py:431-442 [match_summation] *)
Definition match_summation (e : phi) : option (nat * phi * phi) :=
  match e with
  | PFold c size acc init body =>
      match match_reduction_by_body body acc with
      | Some (elem, RAdd) =>
          if phi_eqb init (PConst (ascalar (SF (f_of_Z 0)))) then Some (c, size, elem) else None
      | _ => None
      end
  | _ => None
  end.

(** phi_to_yarr.py:445-506 [Dot].  Sizes are compared with [is]; equal terms
    are taken to be identical here. *)
Record dot : Type := mkDot { contract : list (nat * phi); products : list (list phi) }.

Definition dot_pure (e : phi) : dot := mkDot [] [[e]].
Definition dot_sum (c : nat) (size : phi) (d : dot) : res dot :=
  let* _ := guard (negb (mem c (map fst (contract d)))) EAssert in
  Ok (mkDot (contract d ++ [(c, size)]) (products d)).
Definition union_contract (a b : list (nat * phi)) : list (nat * phi) :=
  a ++ filter (fun p => negb (mem (fst p) (map fst a))) b.
Definition values_agree (a b : list (nat * phi)) : bool :=
  forallb (fun p => match assoc (fst p) b with Some s => phi_eqb (snd p) s | None => true end) a.
Definition dot_add (a b : dot) : res dot :=
  let* _ := guard (values_agree (contract a) (contract b)) EAssert in
  Ok (mkDot (union_contract (contract a) (contract b)) (products a ++ products b)).
Definition dot_mul (a b : dot) : dot :=
  mkDot (union_contract (contract a) (contract b))
        (flat_map (fun p => map (fun q => p ++ q) (products b)) (products a)).
Definition dot_neg (a : dot) : dot :=
  mkDot (contract a)
        (map (fun p => match p with e :: p => PUn UNeg e :: p | [] => [] end) (products a)).

Fixpoint lift (e : phi) : res dot :=
  match e with
  | PFold c size acc init body =>
      match match_summation e with
      | Some _ =>
          (* the summand is one of the operands of [body] *)
          match body with
          | PBin _ a b =>
              let* d := (if is_store acc a then lift b else lift a) in dot_sum c size d
          | _ => Ok (dot_pure e)
          end
      | None => Ok (dot_pure e)
      end
  | PBin BAdd a b => let* x := lift a in let* y := lift b in dot_add x y
  | PUn UNeg a => let* x := lift a in Ok (dot_neg x)
  | PBin BSub a b => let* x := lift a in let* y := lift b in dot_add x (dot_neg y)
  | PBin BMul a b =>
      let* x := lift a in let* y := lift b in
      if existsb (fun p => mem (fst p) (map fst (contract y))) (contract x)
      then Ok (dot_pure e) else Ok (dot_mul x y)
  | _ => Ok (dot_pure e)
  end.

(** Not in the code, asked for by [strict]: what lifting takes for granted.  At
    every sum the summand does not use the accumulator, every product of the
    summand depends on the counter, and the sizes of the sums inside do not
    depend on it. *)
Fixpoint lift_sound (e : phi) : bool :=
  match e with
  | PFold c size acc init body =>
      match match_summation e with
      | Some (_, _, elem) =>
          match body with
          | PBin _ a b => if is_store acc a then lift_sound b else lift_sound a
          | _ => true
          end &&
          negb (smem (SV acc) (fsyms elem)) &&
          match lift elem with
          | Ok d =>
              forallb (existsb (fun a => smem (SV c) (fsyms a))) (products d) &&
              forallb (fun p => negb (smem (SV c) (fsyms (snd p)))) (contract d)
          | Err _ => true
          end
      | None => true
      end
  | PBin BAdd a b | PBin BSub a b | PBin BMul a b => lift_sound a && lift_sound b
  | PUn UNeg a => lift_sound a
  | _ => true
  end.

(** phi_to_yarr.py:509-520 [to_einsum_subs]: letters are numbers below 26
    (IndexError beyond, [ascii_lowercase] has 26 letters). *)
Fixpoint add_letters (alphabet : list (nat * nat)) (l : list nat) : res (list (nat * nat)) :=
  match l with
  | [] => Ok alphabet
  | x :: l =>
      match assoc x alphabet with
      | Some _ => add_letters alphabet l
      | None =>
          let* _ := guard (length alphabet <? 26) EShape in
          add_letters (alphabet ++ [(x, length alphabet)]) l
      end
  end.
Definition to_einsum_subs (operand_axes : list (list nat)) (result_axes : list nat) : res esubs :=
  let* alphabet := add_letters [] (concat operand_axes ++ result_axes) in
  let letter x := match assoc x alphabet with Some c => c | None => 0 end in
  Ok (map (map letter) operand_axes, map letter result_axes).

(** phi_to_yarr.py:97-132 [go_product].  A term is built only if it has a type
    (phi.py:46-47). *)
Definition go_product (rec : idx_sizes -> phi -> res axial) (idxs : idx_sizes)
  (contract : list (nat * phi)) (realised : list (nat * nat)) (sum_axes : idx_sizes)
  (args : list phi) : res (option axial) :=
  if negb (forallb (fun p => forallb (fun e => considerate (psize e) (fst p) (snd p) e) args) contract)
  then Ok None
  else
    let sb := map (fun p => (SV (fst p), p_at (snd p))) realised in
    let with_realised := map (fun e => substitute e sb) args in
    let* _ := mapM typ with_realised in
    let* ops := mapM (rec (sum_axes ++ idxs)) with_realised in
    let operand_axes := map ax_axes ops in
    let* _ := guard (negb (strict fl) ||
                     forallb (fun p => negb (existsb (fun e => smem (SV (fst p)) (fsyms e)) args) ||
                                       mem (snd p) (concat operand_axes)) realised) EAssert in
    let* _ := guard (negb (strict fl) ||
                     forallb (fun p => forallb (fun e => negb (smem (SV (fst p)) (bsyms e))) args) realised) EAssert in
    let result_axes := filter (fun x => negb (mem x (map fst sum_axes))) (alignment operand_axes) in
    let* s := to_einsum_subs operand_axes result_axes in
    let* a := mk_axial result_axes (YEinsum s (map ax_expr ops)) in
    Ok (Some a).

(** phi_to_yarr.py:134-140: stop at the first product that cannot be compiled *)
Fixpoint go_products (f : list phi -> res (option axial)) (l : list (list phi))
  : res (option (list axial)) :=
  match l with
  | [] => Ok (Some [])
  | p :: l =>
      let* a := f p in
      match a with
      | None => Ok None
      | Some a => let* r := go_products f l in Ok (option_map (cons a) r)
      end
  end.

(** phi_to_yarr.py:80-155: the einsum attempt *)
Definition einsum_fold (rec : idx_sizes -> phi -> res axial) (idxs : idx_sizes) (vax : var_axes)
  (e : phi) : res (option axial) :=
  let* d := lift e in
  if is_nil (contract d) || negb (existsb (fun p => 1 <? length p) (products d)) then Ok None
  else
    let i0 := fresh_index idxs vax e in
    let realised := combine (map fst (contract d)) (seq i0 (length (contract d))) in
    let* sizes := mapM (fun p => let* a := rec idxs (snd p) in normal a) (contract d) in
    let sum_axes := combine (seq i0 (length (contract d))) sizes in
    let* summands := go_products (go_product rec idxs (contract d) realised sum_axes) (products d) in
    match summands with
    | None => Ok None
    | Some ops =>
        let* _ := guard (negb (strict fl) || lift_sound e) EAssert in
        let used := alignment (map ax_axes ops) in
        let* ys := mapM (fun op => aligned op used false []) ops in
        match ys with
        | [] => Err EType
        | y :: ys => let* a := mk_axial used (fold_left (ybin BAdd) ys y) in Ok (Some a)
        end
    end.

Definition same_axes (a b : list nat) : bool :=
  forallb (fun x => mem x b) a && forallb (fun x => mem x a) b.

(** Can an array be repeated along the axes it does not have? *)
Definition covers (idxs : idx_sizes) (axes : list nat) (a : axial) : bool :=
  forallb (fun i => mem i (ax_axes a) || match assoc i idxs with Some _ => true | None => false end) axes.
Definition axes_eqb (a b : list nat) : bool := if list_eq_dec Nat.eq_dec a b then true else false.

(** phi_to_yarr.py:41-306 [_go]/[go].  The memo table [transformed] is not
    modelled: it returns what was computed for an equal term before. *)
Fixpoint go (fuel : nat) (idxs : idx_sizes) (vax : var_axes) (e : phi) {struct fuel} : res axial :=
  match fuel with
  | 0 => Err EFuel
  | S fuel =>
      match e with
      | PConst a => mk_axial [] (YConst a)                                        (* 47-48 *)
      | PStore (SX i) _ =>                                                        (* 49-53 *)
          let* s := of_opt EUnbound (assoc i idxs) in mk_axial [i] (YRange s)
      | PStore (SV x) t =>                                                        (* 54-61 *)
          let axes := axes_of vax x in
          let* p := primitive_type t in
          mk_axial axes (YVar x (rank_up (length axes) p))
      | PLet x b body =>                                                          (* 64-70 *)
          let* a := go fuel idxs vax b in
          let* r := go fuel idxs ((x, ax_axes a) :: vax) body in
          within r x (ax_expr a)
      | PAssertEq t _ => go fuel idxs vax t                                       (* 71-72 *)
      | PDim t k =>                                                               (* 73-78 *)
          let* a := go fuel idxs vax t in
          let* p := positional_axis a k in
          mk_axial [] (YDim p (ax_expr a))
      | PFold c size acc init body =>                                             (* 79-191 *)
          let* ein := (if use_einsum fl
                       then einsum_fold (fun is_ t => go fuel is_ vax t) idxs vax e else Ok None) in
          match ein with
          | Some a => Ok a
          | None =>
              let* red := (if use_reductions fl
                           then match_reduction (go fuel idxs vax) (new_index idxs vax e)
                                  c size acc init body
                           else Ok None) in
              match red with
              | Some a => Ok a
              | None =>
                  let* s := go fuel idxs vax size in
                  let* s := normal s in
                  let* i := go fuel idxs vax init in
                  let* b0 := go fuel idxs ((acc, ax_axes i) :: vax) body in
                  let acc_axes := ax_axes b0 in
                  let* b := go fuel idxs ((acc, acc_axes) :: vax) body in
                  let* _ := guard (negb (strict fl) || (same_axes (ax_axes b) acc_axes && covers idxs acc_axes i)) EAssert in
                  let* yi := aligned i acc_axes true idxs in
                  let* yb := aligned b acc_axes true [] in
                  mk_axial acc_axes (YFold c s acc yi yb)
              end
          end
      | PReduce init x y xy vecs =>                                               (* 192-224 *)
          let* i := go fuel idxs vax init in
          let* vs := mapM (go fuel idxs vax) vecs in
          let some_axes := alignment (ax_axes i :: map ax_axes vs) in
          let* b0 := go fuel idxs ((x, some_axes) :: (y, some_axes) :: vax) xy in
          let axes := ax_axes b0 in
          let xy_axes := axes ++ [new_index idxs ((x, axes) :: vax) e] in
          let* b := go fuel idxs ((x, xy_axes) :: (y, xy_axes) :: vax) xy in
          let* _ := guard (negb (strict fl) ||
                           (axes_eqb (ax_axes b) xy_axes && forallb (covers idxs axes) (i :: vs))) EAssert in
          let* yi := aligned i axes true idxs in
          let* ys := mapM (fun v => aligned v axes true idxs) vs in
          let yv := match ys with [y] => y | _ => YTuple ys end in
          mk_axial axes (YReduce yi x y (ax_expr b) yv (length axes))
      | PGet t i => transform_get (go fuel idxs vax) idxs t i                     (* 225-235 *)
      | PConcat a b =>                                                            (* 236-249 *)
          let* x := go fuel idxs vax a in
          let* y := go fuel idxs vax b in
          let used := alignment [ax_axes x; ax_axes y] in
          let* _ := guard (negb (strict fl) || (covers idxs used x && covers idxs used y)) EAssert in
          let* x' := aligned x used true idxs in
          let* y' := aligned y used true idxs in
          mk_axial used (YConcat [x'; y'] (length used))
      | PVec i size body =>                                                       (* 250-257 *)
          let* s := go fuel idxs vax size in
          let* s := normal s in
          let* b := go fuel ((i, s) :: idxs) vax body in
          along b i s
      | PUn UFloat a =>                                                           (* 258-265 *)
          let* x := go fuel idxs vax a in
          mk_axial (ax_axes x) (YCast KFloat (ax_expr x))
      | PUn o a =>                                                                (* 266-273 *)
          let* x := go fuel idxs vax a in
          let used := alignment [ax_axes x] in
          let* x' := aligned x used false [] in
          mk_axial used (YUn o x')
      | PBin o a b =>
          let* x := go fuel idxs vax a in
          let* y := go fuel idxs vax b in
          let used := alignment [ax_axes x; ax_axes y] in
          let* x' := aligned x used false [] in
          let* y' := aligned y used false [] in
          mk_axial used (YBin o x' y' None)
      | PWhere c a b =>
          let* z := go fuel idxs vax c in
          let* x := go fuel idxs vax a in
          let* y := go fuel idxs vax b in
          let used := alignment [ax_axes z; ax_axes x; ax_axes y] in
          let* z' := aligned z used false [] in
          let* x' := aligned x used false [] in
          let* y' := aligned y used false [] in
          mk_axial used (YWhere z' x' y')
      | PCons a b =>                                                              (* 274-277 *)
          let* x := go fuel idxs vax a in
          let* y := go fuel idxs vax b in
          let* _ := guard (negb (strict fl) || same_axes (ax_axes x) (ax_axes y)) EAssert in
          cons_axial x y
      | PFirst t =>                                                               (* 278-281 *)
          let* ty := typ t in
          match ty with
          | TPair t1 _ =>
              let* p := primitive_type t1 in
              let* x := go fuel idxs vax t in
              slice_tuple x 0 (length p)
          | _ => Err EAssert
          end
      | PSecond t =>                                                              (* 282-286 *)
          let* ty := typ t in
          match ty with
          | TPair t1 t2 =>
              let* p := primitive_type t1 in
              let* q := primitive_type t2 in
              let* x := go fuel idxs vax t in
              slice_tuple x (length p) (length p + length q)
          | _ => Err EAssert
          end
      | PExt t f ops =>                                                           (* 287-292 *)
          let* xs := mapM (go fuel idxs vax) ops in
          let used := alignment (map ax_axes xs) in
          let* _ := guard (negb (strict fl) || is_nil used) EAssert in
          let* ys := mapM (fun x => aligned x used false []) xs in
          let* p := primitive_type t in
          mk_axial used (YExt (rank_up (length used) p) f ys)
      end
  end.

End Codegen.
