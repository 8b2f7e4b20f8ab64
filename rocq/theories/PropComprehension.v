(** Properties C46-C48: comprehensions, folds and reductions over records, as
    the frontend builds them from Python functions. *)
From Verif Require YOps.
From Verif Require Import Base Scalar Tensor Types Sym Phi Den Term PhiTerm DenFree SpecPhi Lining Outline Dominators InlineMemo DenWf Sizes Layout Frontend Checkers
  Comprehension ComprehensionSem Slice WhereVec PropSizes Sample.

Section Props.
Context {FO : FloatOps} {EX : Externs}.

(** * C46 *)

(** The new indices as the constructor receives them. *)
Definition index_args (idx : list nat) : list obj := map (fun i => OArr (p_at i) LAtom) idx.

(** [array(constructor)[x1, ..., xn]], for positions in range of the axes, is
    the structure the constructor returned, evaluated with the indices at these
    positions: the same tuples, names and dataclasses, and the same value in
    every component.  The sizes may be given or inferred. *)
Theorem C46_array (dict_attr : nat -> bool) (constructor : list obj -> res obj) (idx : list nat) (size : option (list obj))
    (made a q : obj) (E : env) v l m (xs : list obj) (ks : list Z) :
  constructor (index_args idx) = Ok made -> obj_ok dict_attr made -> Forall consts_wf (obj_leaves made) -> env_wf E ->
  f_array dict_attr constructor idx size = Ok a -> oden E a = Ok (SArr v (LVec l)) ->
  length xs = length idx -> getitem dict_attr (map IAt xs) m a = Ok q -> Forall2 (index_is E) xs ks ->
  (forall j, j < length ks -> exists d, vdim v j = Ok d /\ (0 <= nth j ks 0 < Z.of_nat d)%Z) ->
  exists s, oden (at_indices E idx ks) made = Ok s /\ oden E q = Ok s.
Proof.
  intros HC OK CW W HA HV LX HG HX HR. unfold f_array in HA. fold (index_args idx) in HA. rewrite HC in HA. cbn [bind] in HA.
  apply bind_ok in HA as (lo & B & HA). apply bind_ok in HA as (body & S & HA). apply bind_ok in HA as (szs & _ & HA).
  apply bind_ok in HA as (size_of & _ & HA). apply bind_ok in HA as (e & HE & HA). injection HA as <-.
  destruct (getitem_points dict_attr m xs (length idx) e lo q LX HG) as (es & E1 & ->).
  assert (Y : yields_wf body). { intros E' w W' D. eapply den_wf; [|exact W'|exact D]. eapply consts_wf_pack; eauto. }
  assert (FX : Forall2 (fun x k => exists w, den E x = Ok w /\ val_int w = Ok k) (map fst es) ks).
  { clear - HX E1. revert es E1. induction HX as [|x k xs ks (w & H1 & H2) _ IH]; intros es E1; cbn [mapM] in E1.
    - injection E1 as <-. constructor.
    - apply oden_wrap in H1 as (ex & W1 & D1). rewrite W1 in E1. cbn [bind] in E1. apply bind_ok in E1 as (es' & E1 & Q). injection Q as <-.
      constructor; [exists w; auto|]. apply IH. auto. }
  destruct (pack_all dict_attr (at_indices E idx ks) made OK lo body B S) as [P _].
  destruct idx as [|i idx].
  - destruct xs; [|discriminate]. inversion HX; subst. cbn [mapM] in E1. injection E1 as <-.
    cbn [vecs] in HE. injection HE as <-. simpl in *.
    (* a nullary constructor: no axis, [a] is a [Vec] the constructor returned *)
    assert (exists w, den E body = Ok w) as [w D].
    { clear - HV B S OK. destruct lo; simpl in HV; try (inv_bind; eauto; fail).
      - destruct (mapM _ _); discriminate.
      - destruct tag; simpl in HV; destruct (mapM _ _); discriminate. }
    destruct (P w D) as (s & S1 & S2). exists s. split; auto. eapply oden_to_array; eauto.
  - assert (D : den E e = Ok v).
    { replace (Nat.iter (length (i :: idx)) LVec lo) with (LVec (Nat.iter (length idx) LVec lo)) in HV by reflexivity.
      simpl in HV. inv_bind. auto. }
    assert (LK : length ks = length (i :: idx)). { apply Forall2_len in HX. lia. }
    destruct (vecs_get _ _ Y (i :: idx) e HE E v ks W D LK HR) as (w & V1 & V2).
    destruct (P w V2) as (s & S1 & S2). exists s. split; auto. eapply oden_to_array; [|exact S2].
    rewrite (gets_den E _ ks e v FX D). exact V1.
Qed.

(** Without indices, [array(constructor)] is what the constructor returned. *)
Theorem C46_array_nullary (dict_attr : nat -> bool) (constructor : list obj -> res obj) (made a : obj) (E : env) s :
  constructor [] = Ok made -> obj_ok dict_attr made -> oden E made = Ok s ->
  f_array dict_attr constructor [] None = Ok a -> oden E a = Ok s.
Proof.
  intros HC OK HO HA. unfold f_array in HA. simpl in HA. rewrite HC in HA. cbn [bind] in HA.
  apply bind_ok in HA as (lo & B & HA). apply bind_ok in HA as (body & S & HA). simpl in HA. injection HA as <-.
  destruct (pack_all dict_attr E made OK lo body B S) as [P1 P2]. destruct (P2 s HO) as [v D].
  destruct (P1 v D) as (s' & S1 & S2). rewrite HO in S1. injection S1 as <-. eapply oden_to_array; eauto.
Qed.

Lemma find_combine idx : NoDup idx -> forall (szs : list phi) j i sz, nth_error idx j = Some i -> nth_error szs j = Some sz ->
  find (fun p => sym_eqb (SX i) (fst p)) (combine (map SX idx) szs) = Some (SX i, sz).
Proof.
  induction 1 as [|x idx Hx ND IH]; intros [|s szs] j i sz Hi Hs; destruct j; try discriminate; simpl in *.
  - injection Hi as <-. injection Hs as <-. rewrite Nat.eqb_refl. reflexivity.
  - assert (i <> x) by (intros ->; apply nth_error_In in Hi; tauto).
    destruct (i =? x) eqn:Q; [apply Nat.eqb_eq in Q; congruence|]. eapply IH; eauto.
Qed.

(** Axis [j] of [array(constructor, size=(n1, ..., nk))] has size [nj] (none
    when negative). *)
Theorem C46_array_sizes (dict_attr : nat -> bool) (constructor : list obj -> res obj) (idx : list nat) (size : list obj)
    (made a : obj) (E : env) v l j x z :
  constructor (index_args idx) = Ok made -> Forall consts_wf (obj_leaves made) -> env_wf E -> NoDup idx ->
  f_array dict_attr constructor idx (Some size) = Ok a -> idx <> [] -> oden E a = Ok (SArr v (LVec l)) ->
  (* the sizes were made before the indices *)
  (forall y i s, In y size -> In i idx -> In s (obj_leaves y) -> ~ free_in (SX i) s) ->
  nth_error size j = Some x -> index_is E x z -> vdim v j = Ok (Z.to_nat z).
Proof.
  intros HC CW W ND HA NE HV HF Hj HX. unfold f_array in HA. fold (index_args idx) in HA. rewrite HC in HA. cbn [bind] in HA.
  apply bind_ok in HA as (lo & B & HA). apply bind_ok in HA as (body & S & HA). apply bind_ok in HA as (szs & HS & HA).
  apply bind_ok in HA as (size_of & HI & HA). apply bind_ok in HA as (e & HE & HA). injection HA as <-.
  cbn [wrap_all] in HS. apply bind_ok in HS as (ss & HS & Q). injection Q as <-. cbn [infer_sizes] in HI.
  apply bind_ok in HI as (u & G & Q). injection Q as <-. apply guard_ok in G. apply Nat.eqb_eq in G. rewrite map_length in G.
  destruct HX as (w & O1 & O2). apply oden_wrap in O1 as (sz & W1 & D1).
  assert (Hs : nth_error ss j = Some sz).
  { clear - HS Hj W1. revert ss j HS Hj. induction size as [|y size IH]; intros ss [|j] HS Hj; try discriminate; cbn [mapM] in HS.
    - injection Hj as ->. rewrite W1 in HS. cbn [bind fst] in HS. apply bind_ok in HS as (? & _ & Q). injection Q as <-. reflexivity.
    - apply bind_ok in HS as (? & _ & HS). apply bind_ok in HS as (? & HS & Q). injection Q as <-. simpl. eapply IH; eauto. }
  assert (FR : forall i, In i idx -> ~ isfree (SX i) sz).
  { intros i Hi Q. apply (HF x i sz); auto; [eapply nth_error_In; eauto| |apply free_in_isfree; auto].
    destruct x; simpl in W1; inv_bind; try discriminate; simpl; auto; inversion W1; subst; auto. }
  assert (Y : yields_wf body). { intros E' w' W' D. eapply den_wf; [|exact W'|exact D]. eapply consts_wf_pack; eauto. }
  destruct (nth_error idx j) as [i|] eqn:Hi. 2:{ apply nth_error_None in Hi. assert (j < length ss) by (apply nth_error_Some; congruence). lia. }
  pose proof (find_combine idx ND ss j i sz Hi Hs) as FC.
  assert (D : den E e = Ok v).
  { destruct idx as [|i0 idx]; [congruence|]. simpl in HV. inv_bind. auto. }
  clear HV HC B S NE. set (szs := combine (map SX idx) ss) in *. 
  assert (GG : forall idx' e j, (forall i, In i idx' -> In i idx) -> nth_error idx' j = Some i -> vecs szs idx' body = Ok e ->
    forall E v, env_wf E -> den E sz = Ok w -> den E e = Ok v -> vdim v j = Ok (Z.to_nat z)).
  { clear - FC Y O2 FR. induction idx' as [|i0 idx' IH]; intros e j Hin Hj HE E v W D1 D; [destruct j; discriminate|].
    cbn [vecs] in HE. apply bind_ok in HE as (b & Hb & HE).
    destruct j as [|j]; simpl in Hj.
    - injection Hj as ->. rewrite FC in HE. apply mk_ok in HE as [-> _]. cbn [snd] in D.
      destruct (den_vec _ _ _ _ _ (vecs_wf _ _ Y _ _ Hb) W D) as (d & Hd & (w' & Dw & Q) & _).
      rewrite D1 in Dw. injection Dw as <-. rewrite O2 in Q. cbn [bind] in Q. congruence.
    - destruct (find (fun p => sym_eqb (SX i0) (fst p)) szs) as [p|]; [|discriminate]. apply mk_ok in HE as [-> _].
      destruct (den_vec _ _ _ _ _ (vecs_wf _ _ Y _ _ Hb) W D) as (d & _ & _ & (v0 & D0 & V0) & _).
      rewrite V0. apply (IH b j (fun i H => Hin i (or_intror H)) Hj Hb (upd E (SX i0) (vint 0))); auto.
      + apply env_wf_upd; auto. apply vscalar_wf.
      + rewrite <- D1. apply den_ext. intros s Hs. apply upd_neq. intros Q. subst s. apply (FR i0); auto. apply Hin. left; auto. }
  exact (GG idx e j (fun i H => H) Hi HE E v W D1 D).
Qed.

(** [array(constructor)] without sizes: axis [j] has the size of the first axis
    of every array the constructor indexes with the [j]-th index, if that size
    does not depend on symbols bound inside or on indices. *)
Theorem C46_array_inferred (dict_attr : nat -> bool) (constructor : list obj -> res obj) (idx : list nat)
    (made a : obj) (lm : layout) (body : phi) (E : env) v l j i t w :
  constructor (index_args idx) = Ok made -> Forall consts_wf (obj_leaves made) -> env_wf E ->
  build_layout made = Ok lm -> struct_to_expr dict_attr lm made = Ok body -> unshadowed body ->
  f_array dict_attr constructor idx None = Ok a -> oden E a = Ok (SArr v (LVec l)) -> nth_error idx j = Some i ->
  (exists C, accessed (SX i) t C body) ->
  (forall C s, accessed (SX i) t C body -> free_in s (dim_of t 0) -> ~ In s C /\ forall k, s <> SX k) ->
  den E t = Ok w -> (exists d, vdim w 0 = Ok d) -> vdim w 0 = vdim v j.
Proof.
  intros HC CW W B S U HA HV Hi AC HF Dt Hd. unfold f_array in HA. fold (index_args idx) in HA. rewrite HC in HA. cbn [bind] in HA.
  rewrite B in HA. cbn [bind] in HA. rewrite S in HA. cbn [bind wrap_all] in HA.
  apply bind_ok in HA as (size_of & HI & HA). apply bind_ok in HA as (e & HE & HA). injection HA as <-.
  assert (FC : exists sz, find (fun p => sym_eqb (SX i) (fst p)) size_of = Some (SX i, sz) /\ In (SX i, sz) size_of).
  { assert (Hin : In (SX i) (map SX idx)) by (apply in_map; eapply nth_error_In; eauto).
    clear - HI Hin. unfold infer_sizes in HI. revert size_of HI Hin. generalize (map SX idx ++ []). intros capd. generalize (map SX idx).
    induction l as [|s l IH]; intros sz HI Hin; [destruct Hin|]. cbn [mapM] in HI. apply bind_ok in HI as (p & Hp & HI).
    apply bind_ok in Hp as (n & _ & Q). injection Q as <-. apply bind_ok in HI as (ps & HI & Q). injection Q as <-. cbn [find fst].
    destruct (sym_eqb (SX i) s) eqn:Q; [apply sym_eqb_eq in Q; subst s; exists n; split; simpl; auto|].
    destruct Hin as [->|Hin]; [rewrite sym_eqb_refl in Q; discriminate|]. destruct (IH ps HI Hin) as (n' & N1 & N2). exists n'. simpl. auto. }
  destruct FC as (sz & FC & Hin).
  assert (FR : forall k, In k idx -> ~ isfree (SX k) sz).
  { intros k Hk Q. apply free_in_isfree in Q. destruct (C28_no_bound_symbol _ _ _ _ _ _ _ U HI Hin Q) as [N _]. apply N, in_map. auto. }
  assert (Y : yields_wf body). { intros E' w' W' D. eapply den_wf; [|exact W'|exact D]. eapply consts_wf_pack; eauto. }
  assert (D : den E e = Ok v). { destruct idx as [|i0 idx]; [destruct j; discriminate|]. simpl in HV. inv_bind. auto. }
  assert (GG : forall idx' e j, (forall i, In i idx' -> In i idx) -> nth_error idx' j = Some i -> vecs size_of idx' body = Ok e ->
    forall E v, env_wf E -> den E e = Ok v -> exists ws z E', den E' sz = Ok ws /\ val_int ws = Ok z /\ vdim v j = Ok (Z.to_nat z) /\
      (forall s, ~ In s (map SX idx) -> E' s = E s)).
  { clear - FC Y FR. induction idx' as [|i0 idx' IH]; intros e j Hin Hj HE E v W D; [destruct j; discriminate|].
    cbn [vecs] in HE. apply bind_ok in HE as (b & Hb & HE).
    destruct j as [|j]; simpl in Hj.
    - injection Hj as ->. rewrite FC in HE. apply mk_ok in HE as [-> _]. cbn [snd] in D.
      destruct (den_vec _ _ _ _ _ (vecs_wf _ _ Y _ _ Hb) W D) as (d & Hd & (w' & Dw & Q) & _).
      apply bind_ok in Q as (z & Vz & Q). injection Q as <-. exists w', z, E. auto.
    - destruct (find (fun p => sym_eqb (SX i0) (fst p)) size_of) as [p|]; [|discriminate]. apply mk_ok in HE as [-> _].
      destruct (den_vec _ _ _ _ _ (vecs_wf _ _ Y _ _ Hb) W D) as (d & _ & _ & (v0 & D0 & V0) & _).
      destruct (IH b j (fun i H => Hin i (or_intror H)) Hj Hb (upd E (SX i0) (vint 0)) v0) as (ws & z & E' & A1 & A2 & A3 & A4); auto.
      { apply env_wf_upd; auto. apply vscalar_wf. }
      exists ws, z, E'. rewrite V0. repeat split; auto. intros s Hs. rewrite (A4 s Hs). apply upd_neq. intros Q. subst s.
      apply Hs, in_map, Hin. left. auto. }
  destruct (GG idx e j (fun i H => H) Hi HE E v W D) as (ws & z & E' & A1 & A2 & A3 & A4). rewrite A3.
  eapply (C28_in_range body (map SX idx) [] _ (SX i) sz t E E ws z w); eauto.
  - intros C s Hs Hf Q. destruct (HF C s Hs Hf) as [N1 N2]. apply in_app_or in Q as [Q|Q]; [|simpl in Q; auto].
    apply in_map_iff in Q as (k & Q & _). apply (N2 k). auto.
  - rewrite <- A1. apply den_ext. intros s Hs. symmetry. apply A4. intros Q. apply in_map_iff in Q as (k & <- & Hk). apply (FR k); auto.
  - apply den_ext. intros s Hs. unfold zeroed. destruct s as [s|s]; auto. destruct AC as [C AC].
    destruct (HF C (SX s) AC) as [_ N]; [apply free_in_isfree; auto|]. destruct (N s). auto.
Qed.

(** [a[x1, ..., xn]] is [a[x1]...[xn]]: positions out of range select the
    nearest element. *)
Theorem C46_getitem (dict_attr : nat -> bool) (E : env) (e : phi) l m (xs : list obj) (ks : list Z) q v w s :
  getitem dict_attr (map IAt xs) m (OArr e (Nat.iter (length xs) LVec l)) = Ok q -> xs <> [] ->
  Forall2 (index_is E) xs ks -> den E e = Ok v -> vgets v ks = Ok w -> unpack w l = Ok s -> oden E q = Ok s.
Proof.
  intros HG NE HX D V U.
  assert (G : to_array e (Nat.iter (length xs) LVec l) = OArr e (Nat.iter (length xs) LVec l)) by (destruct xs; [congruence|reflexivity]).
  rewrite <- G in HG. destruct (getitem_points dict_attr m xs (length xs) e l q eq_refl HG) as (es & E1 & ->).
  eapply oden_to_array; [|exact U]. rewrite (gets_den E _ ks e v); auto.
  clear - HX E1. revert es E1. induction HX as [|x k xs ks (w & H1 & H2) _ IH]; intros es E1; cbn [mapM] in E1.
  - injection E1 as <-. constructor.
  - apply oden_wrap in H1 as (ex & W1 & D1). rewrite W1 in E1. cbn [bind] in E1. apply bind_ok in E1 as (es' & E1 & Q). injection Q as <-.
    constructor; [exists w; auto|]. apply IH. auto.
Qed.

(** [b[y1, ..., ym][:, x1, ..., xn]], where [b] does not use the index of an
    enclosing comprehension, has the size of the first axis of the array
    sliced, and element [k] is what [b[y1, ..., ym][k, x1, ..., xn]] holds. *)
Theorem C46_slice (dict_attr : nat -> bool) (E : env) (b : phi) (ys : list phi) (l : layout) n (xs : list obj) (ks : list Z) r ve d s :
  let e := gets b ys in
  getitem dict_attr (ISlice :: map IAt xs) n (OArr e (Nat.iter (S (length xs)) LVec l)) = Ok r ->
  (* [n] is a new index *)
  ~ mentions (SX n) e -> (forall x y, In x xs -> In y (obj_leaves x) -> ~ mentions (SX n) y) ->
  (forall i, ~ free_in (SX i) b) -> unshadowed e -> layout_ok dict_attr l ->
  env_wf E -> consts_wf e -> Forall (fun x => Forall consts_wf (obj_leaves x)) xs ->
  oden E r = Ok s -> den E e = Ok ve -> vdim ve 0 = Ok d -> Forall2 (index_is E) xs ks ->
  exists v, s = SArr v (LVec l) /\ vdim v 0 = Ok d /\
  forall k w sw, k < d -> vgets ve (Z.of_nat k :: ks) = Ok w -> unpack w l = Ok sw ->
    exists u, vget v (Z.of_nat k) = Ok u /\ unpack u l = Ok sw.
Proof.
  intros e H FE FX RB UE LO W CE CX HO DE DD HX. cbn [getitem Nat.iter] in H. unfold f_array in H. cbn [map] in H.
  apply bind_ok in H as (made & HM & H). apply bind_ok in HM as (o1 & H1 & HM). cbn [wrap bind fst] in H1.
  apply bind_ok in H1 as (g & Hg & H1). injection H1 as <-. apply mk_ok in Hg as [-> _].
  destruct (getitem_points dict_attr (S n) xs (length xs) _ l made eq_refl HM) as (es & HE & ->).
  set (ge := gets (PGet e (p_at n)) (map fst es)) in *.
  destruct (to_array_ok dict_attr l ge LO) as [OK BL]. rewrite BL in H. cbn [bind] in H.
  apply bind_ok in H as (body & HB & H). cbn [wrap_all bind] in H. apply bind_ok in H as (szs & HI & H).
  cbn [infer_sizes mapM app] in HI. apply bind_ok in HI as (p & HI & Q). injection Q as <-. apply bind_ok in HI as (sz & HI & Q). injection Q as <-.
  apply bind_ok in H as (q & HQ & H). injection H as <-. cbn [vecs find fst] in HQ. cbn [bind] in HQ. rewrite sym_eqb_refl in HQ.
  apply mk_ok in HQ as [-> _]. cbn [snd length Nat.iter to_array oden] in HO. apply bind_ok in HO as (v & D & HO). injection HO as <-.
  exists v. split; [reflexivity|].
  assert (Hes : forall x, In x (map fst es) -> exists o, In o xs /\ In x (obj_leaves o)).
  { clear - HE. revert es HE. induction xs as [|o xs IH]; intros es HE x Hx; cbn [mapM] in HE; [injection HE as <-; destruct Hx|].
    apply bind_ok in HE as (y & Y & HE). apply bind_ok in HE as (ys & YS & Q). injection Q as <-. destruct Hx as [<-|Hx].
    - exists o. split; [left; auto|]. destruct o; simpl in Y; inv_bind; try discriminate; try (injection Y as <-); simpl; auto.
    - destruct (IH _ YS _ Hx) as (o' & O1 & O2). exists o'. split; [right; auto|auto]. }
  set (x0 := PGet e (p_at n)) in *.
  assert (BA : bare n x0 /\ bare_in x0 x0).
  { split; [|constructor]. apply bare_node; [reflexivity|]. repeat constructor; [apply bare_absent; auto|].
    intros t C A. inversion A as [|? ? ? Hin _]; subst. destruct Hin. }
  assert (BG : bare n ge /\ bare_in x0 ge).
  { split; [apply gets_bare|apply gets_bare_in]; try apply BA. apply Forall_forall. intros x Hx. apply bare_absent.
    destruct (Hes x Hx) as (o & O1 & O2). eauto. }
  assert (BB : bare n body /\ bare_in x0 body).
  { apply (pack_leaves dict_attr (fun y => bare n y /\ bare_in x0 y)) with (l := l) (o := to_array ge l); auto.
    - intros a b' [A1 A2] [B1 B2]. split; [apply bare_node; [reflexivity|]; repeat constructor; auto|].
      eapply bare_step; [reflexivity|left; reflexivity|auto].
    - apply unpack_leaves; auto. intros y i k [Y1 Y2]. split; [apply project_bare|apply project_bare_in]; auto. }
  assert (CB : consts_wf body).
  { eapply consts_wf_pack; [exact HB|]. apply unpack_leaves.
    - intros y i k Hy. unfold project_tuple. assert (consts_wf (Nat.iter i PSecond y)) by (induction i; simpl; auto). destruct (i + 1 <? k); auto.
    - subst ge x0. assert (G : forall xs e, consts_wf e -> Forall consts_wf xs -> consts_wf (gets e xs)).
      { clear. induction xs as [|x xs IH]; intros e He F; simpl; auto. inversion F; subst. apply IH; auto. simpl. auto. }
      apply G; [simpl; auto|]. apply Forall_forall. intros x Hx. destruct (Hes x Hx) as (o & O1 & O2).
      rewrite Forall_forall in CX. specialize (CX o O1). rewrite Forall_forall in CX. auto. }
  assert (Y : yields_wf body). { intros E' w' W' D'. eapply den_wf; eauto. }
  destruct (den_vec _ _ _ _ _ Y W D) as (d' & Hd & (wz & Dz & Vz) & _ & Hk).
  apply bind_ok in Vz as (z & Vz & Q). injection Q as Q.
  assert (RD : forall i, ~ isfree (SX i) (dim_of e 0)).
  { intros i Hi. apply free_in_isfree in Hi. unfold e in Hi. rewrite dim_of_gets in Hi. exact (RB i (dim_of_free _ _ _ Hi)). }
  assert (DQ : vdim ve 0 = Ok (Z.to_nat z)).
  { apply (inferred_size body n sz e E E wz z ve); auto; eauto.
    - eapply bare_accessed; [apply BB|]. apply acc_here.
    - apply BB.
    - apply den_ext. intros s Hs. unfold zeroed. destruct (is_index s) eqn:QI; auto. destruct s; [discriminate|]. exfalso. eapply RD; eauto. }
  rewrite DD in DQ. injection DQ as DQ. assert (Q' : d' = d) by lia. clear Q DQ. subst d'. split; auto.
  intros k w sw Lk Hw Uw. destruct (Hk k Lk) as (u & Du & Vu). exists u. split; auto.
  set (E' := upd E (SX n) (vint (Z.of_nat k))) in *.
  assert (AG : forall y, ~ mentions (SX n) y -> den E' y = den E y).
  { intros y Hy. apply den_ext. intros s Hs. apply upd_neq. intros ->. apply Hy. apply isfree_mentions. auto. }
  assert (DG : den E' ge = Ok w).
  { subst ge x0. cbn [vgets] in Hw. apply bind_ok in Hw as (w0 & W0 & Hw).
    rewrite (gets_den E' _ ks _ w0); auto.
    - clear - HX HE FX AG. revert es HE. induction HX as [|x k0 xs ks (w & O1 & O2) _ IH]; intros es HE; cbn [mapM] in HE; [injection HE as <-; constructor|].
      apply bind_ok in HE as (y & Y & HE). apply bind_ok in HE as (es' & YS & Q). injection Q as <-.
      apply oden_wrap in O1 as (ex & W1 & D1). rewrite W1 in Y. injection Y as <-. constructor.
      + exists w. split; auto. rewrite <- D1. cbn [fst]. apply AG. apply (FX x); [left; auto|].
        destruct x; simpl in W1; inv_bind; try discriminate; try (injection W1 as <- _); simpl; auto.
      + apply IH; auto. intros x' y Hx'. apply FX. right; auto.
    - cbn [den p_at]. rewrite (AG e FE), DE. cbn [bind]. unfold E'. rewrite upd_eq. cbn [of_opt bind]. exact W0. }
  pose proof (oden_to_array E' l _ _ _ DG Uw) as OW.
  destruct (pack_all dict_attr E' (to_array ge l) OK l body BL HB) as [P1 _]. destruct (P1 u Du) as (s' & S1 & S2). congruence.
Qed.

(** array(lambda i, j: {0: (i, i * j)}, size=(2, 3))[1, 5 - 3] *)
Example C46_example :
  let con := fun args => match args with
    | [OArr i _; OArr j _] => Ok (ODict [(0, OTup [OArr i LAtom; OArr (PBin BMul i j) LAtom])])
    | _ => Err EType end in
  let made := ODict [(0, OTup [OArr (p_at 4) LAtom; OArr (PBin BMul (p_at 4) (p_at 5)) LAtom])] in
  let size := [ORaw (ascalar (SI 2)); ORaw (ascalar (SI 3))] in
  let xs := [ORaw (ascalar (SI 1)); OArr (PBin BSub (p_int 5) (p_int 3)) LAtom] in
  let elem := VPair (VArr (mkArr KInt [2; 3] [SI 0; SI 0; SI 0; SI 1; SI 1; SI 1])) (VArr (mkArr KInt [2; 3] [SI 0; SI 0; SI 0; SI 0; SI 1; SI 2])) in
  con (index_args [4; 5]) = Ok made /\ obj_ok (fun _ => false) made /\ Forall consts_wf (obj_leaves made) /\
  exists a q l, f_array (fun _ => false) con [4; 5] (Some size) = Ok a /\ oden empty_env a = Ok (SArr elem (LVec l)) /\
    getitem (fun _ => false) (map IAt xs) 6 a = Ok q /\ Forall2 (index_is empty_env) xs [1; 2]%Z /\
    Forall2 (index_is empty_env) size [2; 3]%Z /\
    vdim elem 0 = Ok 2 /\ vdim elem 1 = Ok 3 /\
    oden empty_env q = Ok (SDict [(0, STup [SArr (vint 1) LAtom; SArr (vint 2) LAtom])]).
Proof.
  cbv zeta. split; [reflexivity|]. split; [simpl; repeat split; try discriminate; repeat constructor; simpl; tauto|].
  split; [repeat constructor|].
  eexists. eexists. eexists. split; [vm_compute; reflexivity|]. split; [vm_compute; reflexivity|].
  split; [vm_compute; reflexivity|]. split; [repeat constructor; eexists; split; vm_compute; reflexivity|].
  split; [repeat constructor; eexists; split; vm_compute; reflexivity|].
  split; [reflexivity|]. split; [reflexivity|]. vm_compute. reflexivity.
Qed.

(** a[1][:, 2], with [a] of shape (2, 3, 4) holding pairs in its elements *)
Example C46_slice_example :
  let kp := TPair (TScalar KInt) (TScalar KInt) in
  let b := PStore (SV 0) (TVec (TVec (TVec kp))) in
  let data := map Z.of_nat (seq 0 24) in
  let va := VPair (VArr (mkArr KInt [2; 3; 4] (map SI data))) (VArr (mkArr KInt [2; 3; 4] (map (fun z => SI (- z)) data))) in
  let E := upd empty_env (SV 0) va in
  let l := LPos [LAtom; LAtom] in
  let e := gets b [p_int 1] in
  let xs := [ORaw (ascalar (SI 2))] in
  ~ mentions (SX 5) e /\ (forall x y, In x xs -> In y (obj_leaves x) -> ~ mentions (SX 5) y) /\
  (forall i, ~ free_in (SX i) b) /\ unshadowed e /\ layout_ok (fun _ => false) l /\ env_wf E /\
  exists r ve, getitem (fun _ => false) (ISlice :: map IAt xs) 5 (OArr e (LVec (LVec l))) = Ok r /\
    den E e = Ok ve /\ vdim ve 0 = Ok 3 /\ Forall2 (index_is E) xs [2%Z] /\
    oden E r = Ok (SArr (VPair (VArr (mkArr KInt [3] [SI 14; SI 18; SI 22])) (VArr (mkArr KInt [3] [SI (-14); SI (-18); SI (-22)]))) (LVec l)).
Proof.
  cbv zeta. split.
  { intros [t H]. inversion H as [|? ? ? I1 H1]; subst. simpl in I1. destruct I1 as [<-|[<-|[]]]; inversion H1 as [|? ? ? I2 H2]; subst; destruct I2. }
  split. { intros x y [<-|[]] [<-|[]] [t H]. inversion H as [|? ? ? I1 H1]; subst. destruct I1. }
  split. { intros i H. simpl in H. discriminate. }
  split; [apply distinct_unshadowed, distinctb_sound; reflexivity|]. split; [simpl; repeat split; discriminate|].
  split. { apply env_wf_upd; [intros s v Q; discriminate|]. split; (split; [reflexivity|]); repeat constructor. }
  eexists. eexists. split; [vm_compute; reflexivity|]. split; [vm_compute; reflexivity|]. split; [reflexivity|].
  split; [repeat constructor; eexists; split; vm_compute; reflexivity|]. vm_compute. reflexivity.
Qed.

(** * C47 *)

(** [fold(init, step, count)] over a structure: [ss k] is the structure after
    [k] steps.  The step must return a structure of the layout of [init]. *)
Theorem C47_fold (dict_attr : nat -> bool) (init : obj) (step : obj -> obj -> res obj) (count : obj) (c acc : nat)
    (E : env) (l : layout) (t : ty) (ie : phi) (body r : obj) (z : Z) (ss : nat -> sval) :
  f_fold dict_attr init step (Some count) c acc = Ok r ->
  obj_ok dict_attr init -> build_layout init = Ok l ->
  struct_to_expr dict_attr l init = Ok ie -> typ ie = Ok t ->
  step (OArr (p_var c (TScalar KInt)) LAtom) (to_array (p_var acc t) l) = Ok body ->
  obj_ok dict_attr body -> build_layout body = Ok l ->
  index_is E count z -> oden E init = Ok (ss 0) ->
  (* the step, with the counter and the accumulator bound *)
  (forall k v, (Z.of_nat k < z)%Z -> unpack v l = Ok (ss k) ->
     oden (upd (upd E (SV acc) v) (SV c) (vint (Z.of_nat k))) body = Ok (ss (S k))) ->
  oden E r = Ok (ss (Z.to_nat z)).
Proof.
  intros HF OI BI SI TI HS OB BB (w & O1 & O2) HI Hstep. unfold f_fold in HF. rewrite BI in HF. cbn [bind] in HF.
  rewrite SI in HF. cbn [bind] in HF. rewrite TI in HF. cbn [bind] in HF. rewrite HS in HF. cbn [bind] in HF.
  apply bind_ok in HF as (u & _ & HF). apply bind_ok in HF as (be & SB & HF).
  apply oden_wrap in O1 as (n & W1 & D1). cbn [wrap_all mapM] in HF. rewrite W1 in HF. cbn [bind fst infer_sizes length Nat.eqb guard combine] in HF.
  apply bind_ok in HF as (e & HE & HF). injection HF as <-. apply mk_ok in HE as [-> _].
  destruct (pack_all dict_attr E init OI l ie BI SI) as [P1 P2]. destruct (P2 _ HI) as [v0 D0].
  destruct (P1 v0 D0) as (s & S1 & U0). rewrite HI in S1. injection S1 as <-.
  assert (G : forall m k v, Z.of_nat (k + m) = Z.max 0 z -> unpack v l = Ok (ss k) ->
    exists v', iter_res (fun k v => den (upd (upd E (SV acc) v) (SV c) (vnat k)) be) k m v = Ok v' /\ unpack v' l = Ok (ss (k + m))).
  { induction m as [|m IH]; intros k v Hm U; cbn [iter_res]; [exists v; rewrite Nat.add_0_r; auto|].
    pose proof (Hstep k v ltac:(lia) U) as Q. fold (vnat k) in Q.
    destruct (pack_all dict_attr (upd (upd E (SV acc) v) (SV c) (vnat k)) body OB l be BB SB) as [B1 B2].
    destruct (B2 _ Q) as [v1 Dv1]. destruct (B1 v1 Dv1) as (s1 & S1 & U1). rewrite Q in S1. injection S1 as <-.
    rewrite Dv1. cbn [bind]. destruct (IH (S k) v1 ltac:(lia) U1) as (v' & V1 & V2). exists v'. split; auto.
    replace (k + S m) with (S k + m) by lia. exact V2. }
  destruct (G (Z.to_nat z) 0 v0 ltac:(lia) U0) as (v' & V1 & V2).
  eapply oden_to_array; [|exact V2]. cbn [den]. rewrite D1. cbn [bind]. rewrite O2. cbn [bind]. rewrite D0. cbn [bind]. exact V1.
Qed.

(** [fold(init, step)] without a count: the count does not depend on the
    counter or the accumulator, and there are as many steps as elements in every
    array the step indexes with the counter, if the size of that array does not
    depend on symbols bound inside the fold or on the index of an enclosing
    comprehension. *)
Theorem C47_fold_inferred (dict_attr : nat -> bool) (init : obj) (step : obj -> obj -> res obj) (c acc : nat)
    (E : env) (l : layout) (ty : ty) (ie be : phi) (body r : obj) (sr : sval) :
  f_fold dict_attr init step None c acc = Ok r ->
  obj_ok dict_attr init -> build_layout init = Ok l -> layout_deep dict_attr l ->
  struct_to_expr dict_attr l init = Ok ie -> typ ie = Ok ty ->
  step (OArr (p_var c (TScalar KInt)) LAtom) (to_array (p_var acc ty) l) = Ok body ->
  obj_ok dict_attr body -> build_layout body = Ok l -> struct_to_expr dict_attr l body = Ok be -> unshadowed be ->
  oden E r = Ok sr ->
  exists n m, r = to_array (PFold c n acc ie be) l /\ ~ free_in (SV c) n /\ ~ free_in (SV acc) n /\
    (forall ss : nat -> sval, oden E init = Ok (ss 0) ->
      (forall k v, k < m -> unpack v l = Ok (ss k) ->
         oden (upd (upd E (SV acc) v) (SV c) (vint (Z.of_nat k))) body = Ok (ss (S k))) ->
      sr = ss m) /\
    forall t v, (exists C, accessed (SV c) t C be) ->
      (forall C s, accessed (SV c) t C be -> free_in s (dim_of t 0) -> s <> SV c /\ s <> SV acc /\ ~ In s C) ->
      den E (dim_of t 0) = den (zeroed E) (dim_of t 0) ->
      den E t = Ok v -> (exists d, vdim v 0 = Ok d) -> vdim v 0 = Ok m.
Proof.
  intros HF OI BI LD SI TI HS OB BB SB U HR. unfold f_fold in HF. rewrite BI in HF. cbn [bind] in HF.
  rewrite SI in HF. cbn [bind] in HF. rewrite TI in HF. cbn [bind] in HF. rewrite HS in HF. cbn [bind] in HF.
  apply bind_ok in HF as (u & _ & HF). rewrite SB in HF. cbn [wrap_all bind] in HF.
  apply bind_ok in HF as (size_of & IS & HF). destruct size_of as [|[s0 n] [|? ?]]; try discriminate.
  apply bind_ok in HF as (e & HE & HF). injection HF as <-. apply mk_ok in HE as [-> _].
  assert (Hin : In (SV c, n) [(s0, n)]).
  { cbn [infer_sizes mapM] in IS. apply bind_ok in IS as (x & Hx & IS). apply bind_ok in Hx as (n' & _ & Q). injection Q as <-.
    cbn [bind] in IS. injection IS as <- <-. left. reflexivity. }
  apply (oden_of_array dict_attr) in HR as (v' & DR & UR); auto. cbn [den] in DR.
  apply bind_ok in DR as (vz & Dn & DR). apply bind_ok in DR as (z & Vz & DR). apply bind_ok in DR as (v0 & D0 & DR).
  exists n, (Z.to_nat z). split; auto.
  assert (NB : forall s, free_in s n -> ~ In s [SV c] /\ ~ In s [SV acc]) by (intros s Hs; eapply C28_no_bound_symbol; eauto).
  split; [intros Q; apply (proj1 (NB _ Q)); left; auto|]. split; [intros Q; apply (proj2 (NB _ Q)); left; auto|]. split.
  { intros ss HI Hstep. destruct (pack_all dict_attr E init OI l ie BI SI) as [P1 _]. destruct (P1 v0 D0) as (s & S1 & U0).
    rewrite HI in S1. injection S1 as <-.
    assert (G : forall m k v v', k + m <= Z.to_nat z -> iter_res (fun k v => den (upd (upd E (SV acc) v) (SV c) (vnat k)) be) k m v = Ok v' ->
      unpack v l = Ok (ss k) -> unpack v' l = Ok (ss (k + m))).
    { clear - OB BB SB Hstep. induction m as [|m IH]; intros k v v' Hk H Uk; cbn [iter_res] in H; [injection H as <-; rewrite Nat.add_0_r; auto|].
      apply bind_ok in H as (v1 & Dv1 & H).
      destruct (pack_all dict_attr (upd (upd E (SV acc) v) (SV c) (vnat k)) body OB l be BB SB) as [B1 _].
      destruct (B1 v1 Dv1) as (s1 & S1 & U1). pose proof (Hstep k v ltac:(lia) Uk) as Q. fold (vnat k) in Q. rewrite Q in S1. injection S1 as <-.
      replace (k + S m) with (S k + m) by lia. apply (IH (S k) v1); auto. lia. }
    pose proof (G _ 0 _ _ (le_n _) DR U0) as G1. rewrite UR in G1. injection G1 as ->. reflexivity. }
  intros t v HA HC Hrect Dt Hd. eapply (C28_in_range be [SV c] [SV acc] _ (SV c) n t E E vz z v); eauto.
  intros C s Hs Hf Q. destruct (HC C s Hs Hf) as (N1 & N2 & N3). simpl in Q. destruct Q as [Q|[Q|Q]]; congruence || auto.
Qed.

(** The layout of what the step returns is not compared with that of the
    initial structure (comprehension.py:164 looks at [init] again).  A step
    that returns its two fields under exchanged names is accepted, and the
    fields are exchanged silently:
    fold(array(lambda i: {0: 1, 1: 2}, size=1),
         lambda k, acc: array(lambda i: {1: acc[i][1], 0: acc[i][0]}, size=1), count=1) *)
Theorem C47_layout_refuted : exists init step c acc r body l l',
  f_fold (fun _ => false) init step (Some (ORaw (ascalar (SI 1)))) c acc = Ok r /\
  (exists t, step (OArr (p_var c (TScalar KInt)) LAtom) (to_array (p_var acc t) l) = Ok body) /\
  build_layout init = Ok l /\ build_layout body = Ok l' /\ l <> l' /\
  oden empty_env init = Ok (SArr (VPair (VArr (mkArr KInt [1] [SI 1])) (VArr (mkArr KInt [1] [SI 2]))) (LVec (LLab [(0, LAtom); (1, LAtom)] None))) /\
  oden empty_env r = Ok (SArr (VPair (VArr (mkArr KInt [1] [SI 2])) (VArr (mkArr KInt [1] [SI 1]))) (LVec (LLab [(0, LAtom); (1, LAtom)] None))).
Proof.
  set (size := Some [ORaw (ascalar (SI 1))]).
  set (lay := LVec (LLab [(0, LAtom); (1, LAtom)] None)).
  set (ie := PVec 0 (p_int 1) (PCons (p_int 1) (p_int 2))).
  set (step := fun (_ acc : obj) => f_array (fun _ => false) (fun args => match args with
      | [i] => let* x := getitem (fun _ => false) [IAt i] 0 acc in
               let* a := get_name (fun _ => false) 0 x in
               let* b := get_name (fun _ => false) 1 x in
               Ok (ODict [(1, b); (0, a)])
      | _ => Err EType end) [7] size).
  exists (OArr ie lay), step, 10, 11. eexists. eexists. exists lay. eexists.
  split; [vm_compute; reflexivity|]. split; [exists (TVec (TPair (TScalar KInt) (TScalar KInt))); vm_compute; reflexivity|].
  split; [reflexivity|]. split; [reflexivity|]. split; [discriminate|]. split; vm_compute; reflexivity.
Qed.

(** fold((1, 1), lambda k, acc: (acc[1], acc[0] + acc[1]), count=3) *)
Example C47_example :
  let init := OTup [ORaw (ascalar (SI 1)); ORaw (ascalar (SI 1))] in
  let step := fun (k acc : obj) => match acc with
    | OTup [OArr a _; OArr b _] => Ok (OTup [OArr b LAtom; OArr (PBin BAdd a b) LAtom])
    | _ => Err EType end in
  let l := LPos [LAtom; LAtom] in
  let ie := PCons (p_int 1) (p_int 1) in
  let t := TPair (TScalar KInt) (TScalar KInt) in
  let acc := p_var 11 t in
  let body := OTup [OArr (PSecond acc) LAtom; OArr (PBin BAdd (PFirst acc) (PSecond acc)) LAtom] in
  let ss := fun k => let p := nth k [(1, 1); (1, 2); (2, 3); (3, 5)]%Z (0, 0)%Z in
    STup [SArr (vint (fst p)) LAtom; SArr (vint (snd p)) LAtom] in
  exists r, f_fold (fun _ => false) init step (Some (ORaw (ascalar (SI 3)))) 10 11 = Ok r /\
  obj_ok (fun _ => false) init /\ build_layout init = Ok l /\ struct_to_expr (fun _ => false) l init = Ok ie /\ typ ie = Ok t /\
  step (OArr (p_var 10 (TScalar KInt)) LAtom) (to_array acc l) = Ok body /\
  obj_ok (fun _ => false) body /\ build_layout body = Ok l /\
  index_is empty_env (ORaw (ascalar (SI 3))) 3 /\ oden empty_env init = Ok (ss 0) /\
  (forall k v, (Z.of_nat k < 3)%Z -> unpack v l = Ok (ss k) ->
     oden (upd (upd empty_env (SV 11) v) (SV 10) (vint (Z.of_nat k))) body = Ok (ss (S k))) /\
  oden empty_env r = Ok (ss 3).
Proof.
  cbv zeta. eexists. split; [vm_compute; reflexivity|].
  split; [simpl; repeat split; discriminate|]. do 4 (split; [reflexivity|]).
  split; [simpl; repeat split; discriminate|]. split; [reflexivity|]. split; [eexists; split; reflexivity|]. split; [reflexivity|].
  split; [|vm_compute; reflexivity].
  intros k v Hk U. destruct v as [a|v w]; cbn in U; [discriminate|].
  assert (k = 0 \/ k = 1 \/ k = 2) as [-> | [-> | ->]] by lia; injection U as -> ->; vm_compute; reflexivity.
Qed.

(** * C48 *)

(** A reduction is only built when the combined structure and the initial one
    have the layout of the elements. *)
Theorem C48_reduce_checked (dict_attr : nat -> bool) (e : phi) (sub : layout) (init : obj) (f : obj -> obj -> res obj) (x y : nat) r :
  vec_reduce dict_attr (OArr e (LVec sub)) init f x y = Ok r ->
  exists el xy, typ e = Ok (TVec el) /\ f (to_array (p_var x el) sub) (to_array (p_var y el) sub) = Ok xy /\
    build_layout xy = Ok sub /\ build_layout init = Ok sub.
Proof.
  intros H. cbn [vec_reduce] in H. apply bind_ok in H as (t & Ht & H). destruct t as [|el|]; try discriminate.
  apply bind_ok in H as (xy & Hf & H). apply bind_ok in H as (l & Hl & H). apply bind_ok in H as (u & G & H). apply guard_ok, layout_eqb_eq in G.
  apply bind_ok in H as (li & Hi & H). apply bind_ok in H as (u' & G' & H). apply guard_ok, layout_eqb_eq in G'. subst. eauto 7.
Qed.

(** [vec.reduce(init, f)] combines the elements of [vec] from the left: [ss k]
    is the structure after [k] elements, [el k] is element [k]. *)
Theorem C48_reduce (dict_attr : nat -> bool) (E : env) (e : phi) (sub : layout) (init : obj) (f : obj -> obj -> res obj) (x y : nat)
    (r xy : obj) (elt : ty) (v : val) (n : nat) (ss el : nat -> sval) :
  vec_reduce dict_attr (OArr e (LVec sub)) init f x y = Ok r -> x <> y ->
  obj_ok dict_attr init -> typ e = Ok (TVec elt) ->
  f (to_array (p_var x elt) sub) (to_array (p_var y elt) sub) = Ok xy -> obj_ok dict_attr xy ->
  den E e = Ok v -> vdim v 0 = Ok n ->
  (forall k w, k < n -> vget v (Z.of_nat k) = Ok w -> unpack w sub = Ok (el k)) ->
  (forall k, k < n -> exists w, vget v (Z.of_nat k) = Ok w) ->
  oden E init = Ok (ss 0) ->
  (forall k a b, k < n -> unpack a sub = Ok (ss k) -> unpack b sub = Ok (el k) ->
     oden (upd (upd E (SV x) a) (SV y) b) xy = Ok (ss (S k))) ->
  oden E r = Ok (ss n).
Proof.
  intros H Hne OI HT Hf OX D DN HEL HDF HI Hstep.
  destruct (C48_reduce_checked _ _ _ _ _ _ _ _ H) as (el' & xy' & T' & F' & BX & BI).
  rewrite HT in T'. injection T' as <-. rewrite Hf in F'. injection F' as <-.
  cbn [vec_reduce] in H. rewrite HT in H. cbn [bind] in H. rewrite Hf in H. cbn [bind] in H. rewrite BX, BI in H. cbn [bind] in H.
  apply bind_ok in H as (u & _ & H). apply bind_ok in H as (u' & _ & H). 
  apply bind_ok in H as (ie & SI & H). apply bind_ok in H as (be & SB & H). apply bind_ok in H as (q & HQ & H). injection H as <-.
  apply mk_ok in HQ as [-> _].
  destruct (pack_all dict_attr E init OI sub ie BI SI) as [P1 P2]. destruct (P2 _ HI) as [v0 D0].
  destruct (P1 v0 D0) as (s & S1 & U0). rewrite HI in S1. injection S1 as <-.
  set (F := fun k w => let* es := mapM (fun u0 => vget u0 (Z.of_nat k)) [v] in
              match es with [] => Err EType | e0 :: es' => den (upd (upd E (SV x) w) (SV y) (fold_left VPair es' e0)) be end).
  assert (G : forall m k w, k + m = n -> unpack w sub = Ok (ss k) ->
    exists w', iter_res F k m w = Ok w' /\ unpack w' sub = Ok (ss (k + m))).
  { induction m as [|m IH]; intros k w Hm U; cbn [iter_res]; [exists w; rewrite Nat.add_0_r; auto|].
    destruct (HDF k ltac:(lia)) as [b Hb]. pose proof (HEL k b ltac:(lia) Hb) as Ub.
    pose proof (Hstep k w b ltac:(lia) U Ub) as Q.
    destruct (pack_all dict_attr (upd (upd E (SV x) w) (SV y) b) xy OX sub be BX SB) as [B1 B2].
    destruct (B2 _ Q) as [v1 Dv1]. destruct (B1 v1 Dv1) as (s1 & S1 & U1). rewrite Q in S1. injection S1 as <-.
    unfold F at 1. cbn [mapM]. rewrite Hb. cbn [bind fold_left]. rewrite Dv1. cbn [bind].
    destruct (IH (S k) v1 ltac:(lia) U1) as (w' & V1 & V2). exists w'. split; auto.
    replace (k + S m) with (S k + m) by lia. exact V2. }
  destruct (G n 0 v0 eq_refl U0) as (w' & V1 & V2). eapply oden_to_array; [|exact V2].
  cbn [den mapM]. rewrite D. cbn [bind mapM]. rewrite DN. cbn [bind forallb guard]. rewrite D0. cbn [bind]. exact V1.
Qed.

(** [a.concat(b)] has the elements of [a], then those of [b]; both must have
    the same layout. *)
Theorem C48_concat (E : env) (a b : phi) (l l' : layout) r va vb n m :
  vec_concat (OArr a (LVec l)) (OArr b l') = Ok r -> den E a = Ok va -> den E b = Ok vb ->
  vdim va 0 = Ok n -> vdim vb 0 = Ok m ->
  l' = LVec l /\ forall s, oden E r = Ok s -> exists v, s = SArr v (LVec l) /\ vdim v 0 = Ok (n + m) /\
    (forall k, k < n -> vget v (Z.of_nat k) = vget va (Z.of_nat k)) /\
    (forall k, k < m -> vget v (Z.of_nat (n + k)) = vget vb (Z.of_nat k)).
Proof.
  intros H Da Db Na Nb. cbn [vec_concat] in H. apply bind_ok in H as (u & G & H). apply guard_ok, layout_eqb_eq in G.
  apply bind_ok in H as (q & HQ & H). injection H as <-. apply mk_ok in HQ as [-> _]. split; [congruence|].
  intros s Hs. simpl in Hs. rewrite Da, Db in Hs. cbn [bind] in Hs. apply bind_ok in Hs as (v & V & Hs). injection Hs as <-.
  exists v. split; auto. split; [eapply vdim_vconcat; eauto|]. eapply vget_vconcat; eauto.
Qed.

(** [a.size(axis)] is the size along [axis] of every array held in the components
    of [a]; it has a value only if these sizes are equal. *)
Theorem C48_size (E : env) (a : phi) (l : layout) (axis : nat) r v d :
  vec_size (OArr a (LVec l)) axis = Ok r -> den E a = Ok v ->
  oden E r = Ok (SArr (vnat d) LAtom) <-> Forall (fun c => nth_error (ashape c) axis = Some d) (YOps.vleaves v).
Proof.
  intros H D. cbn [vec_size] in H. apply bind_ok in H as (q & HQ & H). injection H as <-. apply mk_ok in HQ as [-> _].
  cbn [oden den]. rewrite D. cbn [bind].
  assert (V : forall d, vdim v axis = Ok d <-> Forall (fun c => nth_error (ashape c) axis = Some d) (YOps.vleaves v)).
  { clear. induction v as [c|v1 IH1 v2 IH2]; intros d; cbn [vdim YOps.vleaves].
    - split; intros H.
      + constructor; [|constructor]. destruct (nth_error (ashape c) axis); [injection H as ->; reflexivity|discriminate].
      + inversion H as [|? ? Q _]; subst. rewrite Q. reflexivity.
    - rewrite Forall_app, <- IH1, <- IH2. split; intros H.
      + apply bind_ok in H as (n & N & H). apply bind_ok in H as (m & M & H). apply bind_ok in H as (u & G & H).
        injection H as ->. apply guard_ok, Nat.eqb_eq in G. subst m. auto.
      + destruct H as [-> ->]. cbn [bind]. rewrite Nat.eqb_refl. reflexivity. }
  rewrite <- V. split; intros H.
  - apply bind_ok in H as (w & W & H). apply bind_ok in W as (n & N & W). injection W as <-. injection H as H.
    apply Nat2Z.inj in H. congruence.
  - rewrite H. reflexivity.
Qed.

(** [a.assume(other)] has the value of [a], if [other] has one. *)
Theorem C48_assume (dict_attr : nat -> bool) (E : env) (a : phi) (l : layout) (other r : obj) v :
  assume dict_attr (OArr a l) other = Ok r -> obj_ok dict_attr other -> den E a = Ok v ->
  (exists s, oden E other = Ok s) -> oden E r = Ok (SArr v l).
Proof.
  intros H OK D [s Hs]. cbn [assume] in H. apply bind_ok in H as (lo & B & H). apply bind_ok in H as (e & S & H).
  apply bind_ok in H as (q & HQ & H). injection H as <-. apply mk_ok in HQ as [-> _].
  destruct (pack_all dict_attr E other OK lo e B S) as [_ P]. destruct (P s Hs) as [w Dw].
  simpl. rewrite D, Dw. reflexivity.
Qed.

(** [where(cond, t, f)] on structures of scalars of the same layout is the
    whole of [t] or the whole of [f]. *)
Theorem C48_where (dict_attr : nat -> bool) (E : env) (cond t f r : obj) n b l st sf sr :
  std_where dict_attr cond t f n = Ok r -> obj_ok dict_attr t -> obj_ok dict_attr f -> env_wf E ->
  Forall consts_wf (obj_leaves t) -> Forall consts_wf (obj_leaves f) ->
  build_layout t = Ok l -> lvecs l = 0 ->
  oden E cond = Ok (SArr (vscalar (SB b)) LAtom) -> oden E t = Ok st -> oden E f = Ok sf -> oden E r = Ok sr ->
  build_layout f = Ok l /\ sr = if b then st else sf.
Proof.
  intros H OT OF W CT CF BT Z DC DT DF DR. unfold std_where in H. rewrite BT in H. cbn [bind] in H.
  apply bind_ok in H as (lf & BF & H). apply bind_ok in H as (u & G & H). apply guard_ok, layout_eqb_eq in G. subst lf.
  split; auto. apply oden_wrap in DC as (c & WC & DC). rewrite WC in H. cbn [bind fst] in H.
  eapply (selects_all dict_attr l); eauto.
Qed.

(** The same for structures that hold arrays, also arrays of structures that
    hold arrays: [where] makes a comprehension over each axis, and the result is
    [t] or [f] as a whole.  Asked of the arrays: no well-formedness beyond that
    of constants; shapes that do not depend on the index of an enclosing
    comprehension, though positions may ([steady]); distinct binders; the
    indices from [n] on are new. *)
Theorem C48_where_arrays (dict_attr : nat -> bool) (E : env) (cond t f r : obj) n b l sr :
  std_where dict_attr cond t f n = Ok r -> obj_ok dict_attr t -> obj_ok dict_attr f -> env_wf E ->
  build_layout t = Ok l -> layout_deep dict_attr l ->
  (forall e, In e (obj_leaves t) \/ In e (obj_leaves f) -> consts_wf e /\ steady e /\ unshadowed e) ->
  (forall m e, n <= m -> In e (obj_leaves t) \/ In e (obj_leaves f) \/ In e (obj_leaves cond) ->
     ~ mentions (SX m) e /\ ~ In (SX m) (bsyms e)) ->
  oden E cond = Ok (SArr (vscalar (SB b)) LAtom) -> oden E r = Ok sr ->
  build_layout f = Ok l /\ exists st sf, oden E t = Ok st /\ oden E f = Ok sf /\ sr = if b then st else sf.
Proof.
  intros H OT OF W BT LD HF HN DC DR. unfold std_where in H. rewrite BT in H. cbn [bind] in H.
  apply bind_ok in H as (lf & BF & H). apply bind_ok in H as (u & G & H). apply guard_ok, layout_eqb_eq in G. subst lf.
  split; auto. apply oden_wrap in DC as (c & WC & DC). rewrite WC in H. cbn [bind fst] in H.
  assert (LC : In c (obj_leaves cond)).
  { destruct cond; simpl in WC; inv_bind; try discriminate; try (injection WC as <- _); simpl; auto. }
  assert (FT : forall o, (o = t \/ o = f) -> Forall (fine n) (obj_leaves o)).
  { intros o Ho. apply Forall_forall. intros e He. assert (K : In e (obj_leaves t) \/ In e (obj_leaves f)) by (destruct Ho; subst; auto).
    destruct (HF e K) as (K1 & K2 & K3). repeat split; auto; apply (HN m e); auto; tauto. }
  destruct (chooses_all dict_attr c n (fun m Hm => proj1 (HN m c Hm (or_intror (or_intror LC)))) l n t f r (le_n n) H LD OT OF BT BF) as (_ & _ & _ & S); auto.
Qed.

(** An array of the pairs (1, 2), (3, 4), (5, 6): its sum by
    [a.reduce((0, 10), lambda x, y: (x[0] + y[0], x[1] + y[1]))], its
    concatenation with itself, [where], and [assume]. *)
Example C48_example :
  let kp := TPair (TScalar KInt) (TScalar KInt) in
  let a := PStore (SV 0) (TVec kp) in
  let col := fun l => VArr (mkArr KInt [length l] (map SI l)) in
  let va := VPair (col [1; 3; 5]%Z) (col [2; 4; 6]%Z) in
  let E := upd empty_env (SV 0) va in
  let l := LPos [LAtom; LAtom] in
  let self := OArr a (LVec l) in
  let init := OTup [ORaw (ascalar (SI 0)); ORaw (ascalar (SI 10))] in
  let add := fun x y => match x, y with
    | OTup [OArr p _; OArr q _], OTup [OArr p' _; OArr q' _] => Ok (OTup [OArr (PBin BAdd p p') LAtom; OArr (PBin BAdd q q') LAtom])
    | _, _ => Err EType end in
  let pair := fun p q => STup [SArr (vint p) LAtom; SArr (vint q) LAtom] in
  (exists r, vec_reduce (fun _ => false) self init add 1 2 = Ok r /\ oden E r = Ok (pair 9%Z 22%Z)) /\
  (exists r, vec_concat self self = Ok r /\
     oden E r = Ok (SArr (VPair (col [1; 3; 5; 1; 3; 5]%Z) (col [2; 4; 6; 2; 4; 6]%Z)) (LVec l))) /\
  (exists r, assume (fun _ => false) self init = Ok r /\ oden E r = Ok (SArr va (LVec l))) /\
  (exists c t f r, c = OArr (PBin BLt (p_int 2) (p_int 1)) LAtom /\ t = init /\ f = OList [OArr (PDim a 0) LAtom; OArr (p_int 8) LAtom] /\
     obj_ok (fun _ => false) t /\ obj_ok (fun _ => false) f /\ build_layout t = Ok l /\ build_layout f = Ok l /\ lvecs l = 0 /\
     std_where (fun _ => false) c t f 5 = Ok r /\ oden E c = Ok (SArr (vscalar (SB false)) LAtom) /\
     oden E r = Ok (pair 3%Z 8%Z) /\ oden E f = Ok (pair 3%Z 8%Z)).
Proof.
  cbv zeta. split; [eexists; split; vm_compute; reflexivity|]. split; [eexists; split; vm_compute; reflexivity|].
  split; [eexists; split; vm_compute; reflexivity|].
  eexists. eexists. eexists. eexists. split; [reflexivity|]. split; [reflexivity|]. split; [reflexivity|].
  split; [simpl; repeat split; discriminate|]. split; [simpl; repeat split; discriminate|].
  split; [reflexivity|]. split; [reflexivity|]. split; [reflexivity|]. split; [vm_compute; reflexivity|].
  split; [vm_compute; reflexivity|]. split; vm_compute; reflexivity.
Qed.

(** A matrix of 2 by 3 pairs *)
Example C48_size_example :
  let a := PStore (SV 0) (TVec (TVec (TPair (TScalar KInt) (TScalar KInt)))) in
  let m := VArr (mkArr KInt [2; 3] (map SI [1; 2; 3; 4; 5; 6]%Z)) in
  let E := upd empty_env (SV 0) (VPair m m) in
  let self := OArr a (LVec (LVec (LPos [LAtom; LAtom]))) in
  (exists r, vec_size self 0 = Ok r /\ oden E r = Ok (SArr (vnat 2) LAtom)) /\
  (exists r, vec_size self 1 = Ok r /\ oden E r = Ok (SArr (vnat 3) LAtom)).
Proof. cbv zeta. split; eexists; split; vm_compute; reflexivity. Qed.

(** [where(c, a[i], b)] under an enclosing index [i], with layout "array of
    pairs of a scalar and an array" *)
Example C48_where_example :
  let ty := TVec (TPair (TScalar KInt) (TVec (TScalar KInt))) in
  let l := LVec (LPos [LAtom; LVec LAtom]) in
  let a := PGet (PStore (SV 0) (TVec ty)) (p_at 0) in
  let b := PStore (SV 1) ty in
  let iv := fun sh l => VArr (mkArr KInt sh (map SI l)) in
  let va := VPair (iv [2; 2] [1; 2; 3; 4]%Z) (iv [2; 2; 3] [1; 2; 3; 4; 5; 6; 7; 8; 9; 10; 11; 12]%Z) in
  let vb := VPair (iv [2] [5; 6]%Z) (iv [2; 3] [-1; -2; -3; -4; -5; -6]%Z) in
  let E := upd (upd (upd empty_env (SV 0) va) (SV 1) vb) (SX 0) (vint 1) in
  let t := OArr a l in let f := OArr b l in
  obj_ok (fun _ => false) t /\ obj_ok (fun _ => false) f /\ env_wf E /\ build_layout t = Ok l /\ layout_deep (fun _ => false) l /\
  (forall e, In e (obj_leaves t) \/ In e (obj_leaves f) -> consts_wf e /\ steady e /\ unshadowed e) /\
  (forall m e, 1 <= m -> In e (obj_leaves t) \/ In e (obj_leaves f) \/ In e [PConst (ascalar (SB true))] ->
     ~ mentions (SX m) e /\ ~ In (SX m) (bsyms e)) /\
  exists r, std_where (fun _ => false) (ORaw (ascalar (SB true))) t f 1 = Ok r /\
    oden E r = Ok (SArr (VPair (iv [2] [3; 4]%Z) (iv [2; 3] [7; 8; 9; 10; 11; 12]%Z)) l).
Proof.
  cbv zeta. split; [exact I|]. split; [exact I|].
  split. { repeat (apply env_wf_upd; [|repeat split; repeat constructor]). intros s v Q. discriminate. }
  split; [reflexivity|]. split; [simpl; repeat split; discriminate|]. split.
  { intros e [[<-|[]]|[<-|[]]]; (split; [exact I || (simpl; auto)|]); (split; [|apply distinct_unshadowed, distinctb_sound; reflexivity]).
    - apply steady_get, steady_base. intros i H. simpl in H. discriminate.
    - apply steady_base. intros i H. simpl in H. discriminate. }
  split.
  { intros m e Hm He. assert (G : (exists ty, e = PGet (PStore (SV 0) ty) (p_at 0)) \/ (exists ty, e = PStore (SV 1) ty) \/ e = PConst (ascalar (SB true))).
    { destruct He as [[<-|[]]|[[<-|[]]|[<-|[]]]]; eauto. }
    destruct G as [(ty & ->)|[(ty & ->)| ->]]; (split; [|simpl; auto]); intros [t H]; inversion H as [|? ? ? I1 H1]; subst; try (destruct I1; fail).
    simpl in I1. destruct I1 as [<-|[<-|[]]]; inversion H1 as [|? ? ? I2 H2]; subst; try (destruct I2; fail). lia. }
  eexists. split; vm_compute; reflexivity.
Qed.

(** array(lambda i, j: (a[i], b[j])) and fold(0, lambda k, acc: acc + a[k]) with
    a = [1, 2, 3], b = [5, 6] *)
Example C46_inferred_example :
  let tv := TVec (TScalar KInt) in
  let a := PStore (SV 0) tv in let b := PStore (SV 1) tv in
  let iv := fun l => VArr (mkArr KInt [length l] (map SI l)) in
  let E := upd (upd empty_env (SV 0) (iv [1; 2; 3]%Z)) (SV 1) (iv [5; 6]%Z) in
  let made := OTup [OArr (PGet a (p_at 3)) LAtom; OArr (PGet b (p_at 4)) LAtom] in
  let constructor := fun _ : list obj => Ok made in
  exists r v, f_array (fun _ => false) constructor [3; 4] None = Ok r /\
    struct_to_expr (fun _ => false) (LPos [LAtom; LAtom]) made = Ok (PCons (PGet a (p_at 3)) (PGet b (p_at 4))) /\
    unshadowed (PCons (PGet a (p_at 3)) (PGet b (p_at 4))) /\
    accessed (SX 4) b [] (PCons (PGet a (p_at 3)) (PGet b (p_at 4))) /\
    (forall s, free_in s (dim_of b 0) -> s = SV 1) /\
    oden E r = Ok (SArr v (LVec (LVec (LPos [LAtom; LAtom])))) /\ vdim v 0 = Ok 3 /\ vdim v 1 = Ok 2.
Proof.
  cbv zeta. eexists. eexists. split; [vm_compute; reflexivity|]. split; [reflexivity|].
  split; [apply distinct_unshadowed, distinctb_sound; reflexivity|]. split.
  { match goal with |- accessed ?s ?t _ ?e => refine (acc_sub s t [] e _ _ (acc_here _ _ (TScalar KInt))) end. simpl. auto. }
  split. { intros s H. apply free_in_isfree in H. apply isfree_tfree in H; [|apply unshadowed_hygienic, distinct_unshadowed, distinctb_sound; reflexivity].
    simpl in H. intuition congruence. }
  split; [vm_compute; reflexivity|]. split; reflexivity.
Qed.

Example C47_inferred_example :
  let tv := TVec (TScalar KInt) in
  let a := PStore (SV 0) tv in
  let E := upd empty_env (SV 0) (VArr (mkArr KInt [3] (map SI [1; 2; 3]%Z))) in
  let be := PBin BAdd (p_var 11 (TScalar KInt)) (PGet a (p_var 10 (TScalar KInt))) in
  let step := fun (k acc : obj) => match k, acc with
    | OArr k _, OArr x _ => Ok (OArr (PBin BAdd x (PGet a k)) LAtom)
    | _, _ => Err EType end in
  let ss := fun k => SArr (vint (nth k [0; 1; 3; 6]%Z 0%Z)) LAtom in
  exists r, f_fold (fun _ => false) (ORaw (ascalar (SI 0))) step None 10 11 = Ok r /\
    step (OArr (p_var 10 (TScalar KInt)) LAtom) (to_array (p_var 11 (TScalar KInt)) LAtom) = Ok (OArr be LAtom) /\ unshadowed be /\
    oden E (ORaw (ascalar (SI 0))) = Ok (ss 0) /\
    (forall k v, k < 3 -> unpack v LAtom = Ok (ss k) ->
       oden (upd (upd E (SV 11) v) (SV 10) (vint (Z.of_nat k))) (OArr be LAtom) = Ok (ss (S k))) /\
    accessed (SV 10) a [] be /\ oden E r = Ok (ss 3).
Proof.
  cbv zeta. eexists. split; [vm_compute; reflexivity|]. split; [reflexivity|].
  split; [apply distinct_unshadowed, distinctb_sound; reflexivity|]. split; [reflexivity|]. split.
  { intros k v Hk U. simpl in U. injection U as ->. destruct k as [|[|[|k]]]; try lia; vm_compute; reflexivity. }
  split; [match goal with |- accessed ?s ?t _ ?e => refine (acc_sub s t [] e _ _ (acc_here _ _ (TScalar KInt))) end; simpl; auto|]. vm_compute. reflexivity.
Qed.

End Props.

Print Assumptions C46_array.
Print Assumptions C46_array_nullary.
Print Assumptions C46_array_sizes.
Print Assumptions C46_array_inferred.
Print Assumptions C46_getitem.
Print Assumptions C46_slice.
Print Assumptions C47_fold.
Print Assumptions C47_fold_inferred.
Print Assumptions C47_layout_refuted.
Print Assumptions C48_reduce_checked.
Print Assumptions C48_reduce.
Print Assumptions C48_concat.
Print Assumptions C48_size.
Print Assumptions C48_assume.
Print Assumptions C48_where.
Print Assumptions C48_where_arrays.
