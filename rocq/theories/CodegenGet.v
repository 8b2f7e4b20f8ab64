(** Element access: the array code of [transform_get] computes the accessed
    elements (array_indexing.py:66-180). *)
From Verif Require Import Base Scalar Tensor Types Sym Phi Den Term PhiTerm DenFree SpecPhi Lining TypesFacts Typing DenWf Naive
  Sizes ClipShift NdOps NdFacts Yarr Axial AxialFacts AxialOps Codegen IndexOps YOps CodegenSafe.

Section Get.
Context {FO : FloatOps} {EX : Externs} {PO : PadOps}.
Variable fl : flags.
Variable orc : oracle.
Variable padk : kind -> bool.
Variable pade : bool.

(** The backend's pad is the reference pad on one axis of non-empty arrays. *)
Definition pad_spec : Prop := forall a u n v l r,
  arr_wf a -> ashape a = u ++ n :: v -> 1 <= n -> (0 <= l)%Z -> (0 <= r)%Z ->
  padk (akind a) = true -> pade = true \/ Forall (lt 0) (ashape a) ->
  pad_call a (pads_at (length u) (length v) l r) = nd_edge_pad a (pads_at (length u) (length v) l r).
Hypothesis PAD : pad_spec.

Variables (N : nat -> nat) (I X : list nat) (r : yenv) (idxs : idx_sizes) (vax : var_axes) (E : asg -> env) (G : tctx).
Hypothesis C : ctx N I X r idxs vax E G.
Notation good := (good fl orc padk pade G N I X E).

Definition result_ok (e : phi) (a : axial) : Prop :=
  exists l, yok X r (ax_expr a) l /\ vrep N I (ax_axes a) l (fun s => dval (E s) e).

Variable rec : phi -> res axial.
Hypothesis REC : forall e a, rec e = Ok a -> good e -> result_ok e a.

Definition zof (v : val) : Z := match val_int v with Ok z => z | Err _ => 0%Z end.

Lemma zof_scalar z : zof (VArr (ascalar (SI z))) = z.
Proof. reflexivity. Qed.

Lemma good_zof e s : good e -> int_typed e -> wv N I s -> dval (E s) e = VArr (ascalar (SI (zof (dval (E s) e)))).
Proof.
  intros Hg Ht Hs. destruct (typed_int _ (good_typed _ _ _ _ _ _ _ _ _ _ _ _ C e _ s Hg Ht Hs)) as (z & Q).
  rewrite Q. rewrite zof_scalar. auto.
Qed.

Lemma good_den_int e s : good e -> int_typed e -> wv N I s -> den_int (E s) e (zof (dval (E s) e)).
Proof.
  intros Hg Ht Hs. exists (dval (E s) e). split; [eapply good_den; eauto|].
  rewrite (good_zof e s Hg Ht Hs). rewrite zof_scalar. reflexivity.
Qed.

Lemma rank_rep y l rk : erank y = Ok rk -> yok X r y l -> exists b, l = [b] /\ rk = arank b.
Proof.
  intros H [_ T]. unfold erank in H. rewrite T in H. cbn [bind] in H.
  destruct l as [|b [|b' l]]; cbn in H; try discriminate. injection H as <-. exists b. auto.
Qed.

Lemma result_int e a : rec e = Ok a -> good e -> int_typed e ->
  exists b, yok X r (ax_expr a) [b] /\ NoDup (ax_axes a) /\ incl (ax_axes a) I /\
    frep N I all_axes (ax_axes a) [] KInt b (fun s => ascalar (SI (zof (dval (E s) e)))).
Proof.
  intros H Hg Ht. destruct (REC e a H Hg) as (l & Y & (ND & IN & L & HL)).
  assert (Q := good_zof e _ Hg Ht (wv_zero N I)).
  pose proof (L _ (wv_zero N I)) as L0. rewrite Q in L0. cbn in L0. destruct l as [|b [|b' l]]; try discriminate.
  exists b. split; auto. split; auto. split; auto.
  destruct (HL 0 ltac:(simpl; lia)) as (rest & k & F). simpl in F.
  assert (HA : forall s, wv N I s -> leaf (fun s => dval (E s) e) 0 s = ascalar (SI (zof (dval (E s) e)))).
  { intros s Hs. unfold leaf. rewrite (good_zof e s Hg Ht Hs). reflexivity. }
  destruct (fr_mem _ _ _ _ _ _ _ _ F _ (wv_zero N I)) as (_ & K & S). rewrite HA in K, S by apply wv_zero.
  simpl in K, S. subst k rest. eapply frep_ext; [| |exact F]; auto.
Qed.

Lemma normal_const e a y : rec e = Ok a -> normal a = Ok y -> good e -> int_typed e ->
  exists z, yok X r y [ascalar (SI z)] /\ forall s, wv N I s -> zof (dval (E s) e) = z.
Proof.
  intros H Hn Hg Ht. destruct (result_int e a H Hg Ht) as (b & Y & ND & IN & F).
  unfold normal in Hn. destruct (ax_axes a) eqn:Q; [|discriminate]. injection Hn as <-.
  assert (R : rep N I [] b (fun s => ascalar (SI (zof (dval (E s) e))))) by (split; [auto|split; eauto]).
  pose proof (rep_nil _ _ _ _ R) as K. exists (zof (dval (E (fun _ => 0)) e)).
  assert (K0 := K _ (wv_zero N I)). cbv beta in K0. rewrite K0. split; auto.
  intros s Hs. assert (K1 := K s Hs). cbv beta in K1. rewrite <- K0 in K1. injection K1. auto.
Qed.

Lemma gather_type ax a i b : nd_gather ax a i = Ok b -> akind b = akind a /\ arank b = arank a.
Proof.
  unfold nd_gather. intros H. apply bind_ok in H as (? & _ & H). apply bind_ok in H as (? & R & H).
  apply bind_ok in H as (? & _ & H). apply bind_ok in H as (? & _ & H). apply bind_ok in H as (sh & Z & H).
  injection H as <-. apply guard_ok in R. apply Nat.eqb_eq in R. apply zip_bdim_length in Z.
  split; auto. unfold arank in *. simpl. lia.
Qed.

(** The accessed elements. *)
Lemma get_family t i : good (PGet t i) -> good t -> good i -> int_typed i ->
  forall ax k rest0 bt At, 
  frep N I all_axes ax rest0 k bt At ->
  (forall s, wv N I s -> dval (E s) t = VArr (At s)) ->
  exists n rest, rest0 = n :: rest /\
    (forall s, wv N I s -> vdim (dval (E s) t) 0 = Ok n) /\
    exists A', (forall s, wv N I s -> dval (E s) (PGet t i) = VArr (A' s)) /\
    forall s, wv N I s -> arr_wf (A' s) /\ akind (A' s) = k /\ ashape (A' s) = rest /\
      (forall p, inb rest p -> get (A' s) p = get (At s) (clip (zof (dval (E s) i)) n :: p)).
Proof.
  intros Hg Gt Gi Ti ax k rest0 bt At F HV.
  assert (D : forall s, wv N I s -> exists b, aget (At s) (zof (dval (E s) i)) = Ok b /\ dval (E s) (PGet t i) = VArr b).
  { intros s Hs. pose proof (good_den _ _ _ _ _ _ _ _ _ _ _ Hg Hs) as Q. cbn [den] in Q.
    rewrite (good_den _ _ _ _ _ _ _ _ _ _ _ Gt Hs), (good_den _ _ _ _ _ _ _ _ _ _ _ Gi Hs), HV in Q by auto.
    cbn [bind] in Q. rewrite (good_zof i s Gi Ti Hs) in Q. cbn in Q.
    apply bind_ok in Q as (b & Qb & Q). injection Q as Q. exists b. split; auto. }
  destruct (D _ (wv_zero N I)) as (b0 & D0 & _). unfold aget in D0.
  destruct (fr_mem _ _ _ _ _ _ _ _ F _ (wv_zero N I)) as (_ & _ & S0). rewrite S0 in D0.
  destruct rest0 as [|n rest]; [discriminate|]. exists n, rest. split; auto. split.
  { intros s Hs. rewrite HV by auto. destruct (fr_mem _ _ _ _ _ _ _ _ F s Hs) as (_ & _ & S1). simpl. rewrite S1. reflexivity. }
  exists (fun s => asub (At s) (clip (zof (dval (E s) i)) n)). split.
  - intros s Hs. destruct (D s Hs) as (b & Q1 & ->). f_equal. unfold aget in Q1.
    destruct (fr_mem _ _ _ _ _ _ _ _ F s Hs) as (_ & _ & S1). rewrite S1 in Q1. congruence.
  - intros s Hs. destruct (fr_mem _ _ _ _ _ _ _ _ F s Hs) as (W1 & K1 & S1).
    assert (Q : tl (ashape (At s)) = rest) by (rewrite S1; auto).
    split; [|split; [|split]]; auto.
    + apply aget_wf with (a := At s) (z := zof (dval (E s) i)); auto. unfold aget. rewrite S1. reflexivity.
    + intros p Hp. apply asub_get. rewrite Q. auto.
Qed.

(** take and gather (array_indexing.py:94-109, 158-177) *)
Definition others (target : axial) (rank : nat) (item_ : phi) : res axial :=
  let* item := rec item_ in
  if use_takes fl && forallb (fun x => negb (mem x (ax_axes item))) (ax_axes target) then
    let* p := positional_axis target 0 in
    mk_axial (ax_axes target ++ ax_axes item)
             (YTake (ax_expr target) (put_at rank p (ax_expr item)))
  else general_get target item.

Lemma has_nil {A} x : has (@nil (nat * A)) x = false.
Proof. reflexivity. Qed.

Lemma others_ok t i target rank a bt n rest k At :
  others target rank i = Ok a -> good (PGet t i) -> good t -> good i -> int_typed i ->
  yok X r (ax_expr target) [bt] -> rank = arank bt -> NoDup (ax_axes target) -> incl (ax_axes target) I ->
  frep N I all_axes (ax_axes target) (n :: rest) k bt At ->
  (forall s, wv N I s -> dval (E s) t = VArr (At s)) -> 1 <= n ->
  result_ok (PGet t i) a.
Proof.
  intros H Hg Gt Gi Ti Yt RK ND IN F HV Hn. unfold others in H.
  apply bind_ok in H as (item & Hi & H).
  destruct (result_int i item Hi Gi Ti) as (bi & Yi & NDi & INi & Fi).
  destruct (get_family t i Hg Gt Gi Ti _ _ _ _ _ F HV) as (n' & rest' & Q & _ & A' & HA & HA').
  injection Q as <- <-.
  pose proof (frep_rank _ _ _ _ _ _ _ _ F) as RB. cbn [length] in RB.
  pose proof (frep_rank _ _ _ _ _ _ _ _ Fi) as RI. cbn [length] in RI.
  destruct (_ && _) eqn:TK.
  - apply andb_true_iff in TK as [_ DJ]. rewrite forallb_forall in DJ.
    apply bind_ok in H as (p & Hp & H). unfold positional_axis in Hp. 
    apply bind_ok in Hp as (rk & _ & Hp). apply bind_ok in Hp as (u & _ & Hp). injection Hp as <-. rewrite Nat.add_0_r in H.
    apply mk_axial_inv in H as (-> & NDa & _). cbn [ax_axes ax_expr]. subst rank.
    destruct (take_ok N I (ax_axes target) (ax_axes item) n rest k bt At bi _ A' ltac:(lia) F Fi HA') as (b & T & FB).
    exists [b]. cbn [ax_axes ax_expr]. split.
    + eapply yok_take; eauto; [lia| |].
      * pose proof (frep_rank _ _ _ _ _ _ _ _ FB) as RC. unfold arank in *. rewrite app_length in RC. lia.
      * rewrite (fr_kind _ _ _ _ _ _ _ _ FB), (fr_kind _ _ _ _ _ _ _ _ F). auto.
    + split; auto. split; [apply incl_app; auto|]. eapply vfrep_one; eauto.
  - unfold general_get in H. 
    set (axes := alignment [ax_axes item; ax_axes target]) in *.
    apply bind_ok in H as (rk & Hrk & H). destruct (rank_rep _ _ _ Hrk Yt) as (b' & Qb & Qr). injection Qb as <-.
    apply bind_ok in H as (yt & Ht & H). apply bind_ok in H as (yi & Hyi & H).
    apply mk_axial_inv in H as (-> & NDa & _).
    assert (INa : incl axes I).
    { apply alignment_incl. intros ax [<-|[<-|[]]]; auto. }
    assert (Vt : vrep N I (ax_axes target) [bt] (fun s => VArr (At s))).
    { split; auto. split; auto. eapply vfrep_one; eauto. }
    assert (Vi : vrep N I (ax_axes item) [bi] (fun s => VArr (ascalar (SI (zof (dval (E s) i)))))).
    { split; auto. split; auto. eapply vfrep_one with (A := fun s => ascalar (SI (zof (dval (E s) i)))); eauto. }
    destruct (aligned_ok N I X r target axes true [] yt _ _ Ht (sizes_ok_nil _ _ _ _) NDa INa Yt Vt) as (lt' & Y1 & L1 & F1 & _).
    destruct (aligned_ok N I X r item axes true [] yi _ _ Hyi (sizes_ok_nil _ _ _ _) NDa INa Yi Vi) as (li & Y2 & L2 & F2 & _).
    destruct lt' as [|bt' [|? ?]]; try discriminate. destruct li as [|bi' [|? ?]]; try discriminate.
    specialize (F1 0 ltac:(simpl; lia) (n :: rest) k). cbn [nth] in F1.
    assert (F1' : frep N I (fun i => mem i (ax_axes target)) axes (n :: rest) k bt' At).
    { eapply frep_ext; cycle 2.
      - apply F1. eapply frep_ext; [| |exact F]; auto.
      - cbv beta. intros; rewrite has_nil, orb_false_r; auto.
      - reflexivity. }
    specialize (F2 0 ltac:(simpl; lia) [] KInt). cbn [nth] in F2.
    assert (F2' : frep N I (fun i => mem i (ax_axes item)) axes [] KInt bi' (fun s => ascalar (SI (zof (dval (E s) i))))).
    { eapply frep_ext; cycle 2.
      - apply F2. eapply frep_ext; [| |exact Fi]; auto.
      - cbv beta. intros; rewrite has_nil, orb_false_r; auto.
      - reflexivity. }
    destruct (gather_ok N I axes (ax_axes target) (ax_axes item) n rest k bt' At bi' (fun s => zof (dval (E s) i)) A' NDa INa) as
      (bu & bg & b & U & GA & SQ & KU & LU & FB); auto.
    { intros x Hx. apply alignment_In in Hx as (ax & [<-|[<-|[]]] & Hx); apply mem_In in Hx; rewrite Hx; auto using orb_true_r. }
    exists [b]. cbn [ax_axes ax_expr].
    pose proof (frep_rank _ _ _ _ _ _ _ _ FB) as RC. pose proof (frep_rank _ _ _ _ _ _ _ _ F1') as RD. cbn [length] in RD.
    assert (GK : akind bg = akind bt' /\ arank bg = arank bt').
    { apply gather_type in GA as [GA1 GA2]. auto. }
    destruct GK as [GK GR]. unfold arank in *.
    split.
    + eapply yok_squeeze; [|exact SQ| |].
      * eapply yok_gather; eauto. eapply yok_unsqueeze; eauto.
        replace (rk - length (ax_axes target)) with (S (length rest)) by (rewrite Qr; lia). auto.
      * cbn [length]. lia.
      * rewrite GK, (fr_kind _ _ _ _ _ _ _ _ FB), (fr_kind _ _ _ _ _ _ _ _ F1'). auto.
    + split; auto. split; auto. eapply vfrep_one; eauto.
Qed.

(** a part of the index expression that is compiled to a scalar *)
Definition opt_part (o : option phi) (dflt : yarr) : res yarr :=
  match o with
  | Some e => let* a := rec e in normal a
  | None => Ok dflt
  end.

Lemma opt_part_ok o dflt y zd : opt_part o dflt = Ok y -> part_ok fl orc padk pade N I X E G o ->
  yok X r dflt [ascalar (SI zd)] ->
  exists z, yok X r y [ascalar (SI z)] /\
    match o with
    | Some e => forall s, wv N I s -> zof (dval (E s) e) = z
    | None => z = zd
    end.
Proof.
  intros H P Yd. destruct o as [e|]; simpl in *.
  - apply bind_ok in H as (a & Ha & Hn). destruct P as [P1 P2]. eapply normal_const; eauto.
  - injection H as <-. eauto.
Qed.

(** slices and pads (array_indexing.py:76-93, 116-155) *)
Lemma pad_slice_ok (target : axial) bt n rest k i At A' ysh ylo yhi ysz d lo hi y :
  pad_slice_get (ax_expr target) (length (ax_axes target)) ysh ylo yhi ysz = Ok y ->
  yok X r (ax_expr target) [bt] -> frep N I all_axes (ax_axes target) (n :: rest) k bt At ->
  yok X r ysh [ascalar (SI d)] -> yok X r ylo [ascalar (SI lo)] -> yok X r yhi [ascalar (SI hi)] ->
  yok X r ysz [ascalar (SI (Z.of_nat (N i)))] ->
  1 <= N i -> 1 <= n -> (0 <= lo)%Z -> (0 <= hi <= Z.of_nat n - 1)%Z ->
  padk k = true -> pade = true \/ ((forall j, 1 <= N j) /\ Forall (lt 0) rest) ->
  (forall s, wv N I s -> arr_wf (A' s) /\ akind (A' s) = k /\ ashape (A' s) = rest /\
     forall p, inb rest p ->
       get (A' s) p = get (At s) (clip (Z.min (Z.max (Z.of_nat (s i) + d) lo) hi) n :: p)) ->
  exists b, yok X r y [b] /\ frep N I all_axes (ax_axes target ++ [i]) rest k b A'.
Proof.
  intros H Yt F Y1 Y2 Y3 Y4 Hi Hn Hlo Hhi PK PE HA. unfold pad_slice_get in H.
  apply bind_ok in H as (rk & Hrk & H). destruct (rank_rep _ _ _ Hrk Yt) as (b' & Qb & ->). injection Qb as <-.
  apply bind_ok in H as (u1 & _ & H). apply bind_ok in H as (u2 & _ & H). injection H as <-.
  pose proof (frep_rank _ _ _ _ _ _ _ _ F) as RB. cbn [length] in RB.
  destruct (slice_pad_ok N I (ax_axes target) i d lo hi n rest k bt At A' Hi Hn Hlo Hhi F HA) as
    (b1 & b2 & S1 & W1 & K1 & Sh1 & C1 & L0 & R0 & P2 & F2).
  set (size := Z.of_nat (N i)) in *. set (start := Z.min (Z.max d lo) hi) in *.
  set (stop := (Z.min (Z.max (d + size - 1) lo) hi + 1)%Z) in *.
  set (left := Z.min (Z.max (lo - d) 0) (size - 1)) in *.
  set (right := (size - (stop - start) - left)%Z) in *.
  exists b2. split; [|exact F2].
  set (ystart := ybin BMin (ybin BMax ysh ylo) yhi).
  set (ystop := ybin BAdd (ybin BMin (ybin BMax (ybin BSub (ybin BAdd ysh ysz) (yint 1)) ylo) yhi) (yint 1)).
  set (yleft := ybin BMin (ybin BMax (ybin BSub ylo ysh) (yint 0)) (ybin BSub ysz (yint 1))).
  assert (Ystart : yok X r ystart [ascalar (SI start)]).
  { eapply yok_ibin; [eapply yok_ibin; [exact Y1|exact Y2|reflexivity]|exact Y3|reflexivity]. }
  assert (Ystop : yok X r ystop [ascalar (SI stop)]).
  { eapply yok_ibin; [|apply yok_int|reflexivity]. eapply yok_ibin; [|exact Y3|reflexivity].
    eapply yok_ibin; [|exact Y2|reflexivity]. eapply yok_ibin; [|apply yok_int|reflexivity].
    eapply yok_ibin; [exact Y1|exact Y4|reflexivity]. }
  assert (Yleft : yok X r yleft [ascalar (SI left)]).
  { eapply yok_ibin; [|eapply yok_ibin; [exact Y4|apply yok_int|reflexivity]|reflexivity].
    eapply yok_ibin; [|apply yok_int|reflexivity]. eapply yok_ibin; [exact Y2|exact Y1|reflexivity]. }
  assert (Yright : yok X r (ybin BSub (ybin BSub ysz (ybin BSub ystop ystart)) yleft) [ascalar (SI right)]).
  { eapply yok_ibin; [|exact Yleft|reflexivity]. eapply yok_ibin; [exact Y4| |reflexivity].
    eapply yok_ibin; [exact Ystop|exact Ystart|reflexivity]. }
  assert (R1 : arank b1 = arank bt).
  { unfold arank in *. rewrite Sh1, app_length, map_length. cbn [length]. lia. }
  pose proof (frep_rank _ _ _ _ _ _ _ _ F2) as RC. rewrite app_length in RC. cbn [length] in RC.
  assert (YS : yok X r (YSlice (ax_expr target) (put_at (arank bt) (length (ax_axes target)) ystart)
                 (put_at (arank bt) (length (ax_axes target)) ystop)) [b1]).
  { eapply yok_slice; eauto. lia. }
  set (ysl := YSlice (ax_expr target) (put_at (arank bt) (length (ax_axes target)) ystart)
                 (put_at (arank bt) (length (ax_axes target)) ystop)) in *.
  clearbody ysl. rewrite <- R1.
  eapply yok_pad with (k := length rest) (z1 := left) (z2 := right); eauto.
  - replace (length (ax_axes target)) with (length (map N (ax_axes target))) by apply map_length.
    rewrite PAD with (n := Z.to_nat (stop - start)); auto.
    + rewrite map_length. exact P2.
    + rewrite K1, (fr_kind _ _ _ _ _ _ _ _ F). auto.
    + destruct PE as [PE|[PE1 PE2]]; [left; auto|right]. rewrite Sh1. apply Forall_app. split; [|constructor; auto; lia].
      apply Forall_forall. intros x Hx. apply in_map_iff in Hx as (j & <- & _). apply PE1.
  - unfold arank in *. lia.
  - unfold arank in *. lia.
  - rewrite (fr_kind _ _ _ _ _ _ _ _ F2), K1, (fr_kind _ _ _ _ _ _ _ _ F). auto.
Qed.

Lemma clip_clip z lo hi n : (forall l, lo = Some l -> 0 <= l)%Z -> (forall h, hi = Some h -> 0 <= h <= Z.of_nat n - 1)%Z -> 1 <= n ->
  clip match hi with Some h => Z.min (match lo with Some l => Z.max z l | None => z end) h
       | None => match lo with Some l => Z.max z l | None => z end end n
  = clip (Z.min (Z.max z match lo with Some l => l | None => 0 end) match hi with Some h => h | None => Z.of_nat n - 1 end) n.
Proof.
  intros Hl Hh Hn. unfold clip. destruct lo as [l|], hi as [h|];
    try specialize (Hl _ eq_refl); try specialize (Hh _ eq_refl); lia.
Qed.

(** Theorem: array_indexing.py:66-109 computes the accessed elements. *)
Theorem transform_get_ok t i a : transform_get fl orc rec idxs t i = Ok a -> good (PGet t i) ->
  result_ok (PGet t i) a.
Proof.
  intros H Hg. destruct (good_get _ _ _ _ _ _ _ _ _ _ _ Hg) as (Gt & Gi & Ti & (el & Tt) & SF).
  unfold transform_get in H. apply bind_ok in H as (target & Ht & H).
  apply bind_ok in H as (rank & Hrk & H).
  destruct (REC t target Ht Gt) as (l & Yt & Vt).
  destruct (rank_rep _ _ _ Hrk Yt) as (bt & -> & RK).
  destruct Vt as (ND & IN & VF). destruct (vfrep_one_inv _ _ _ _ _ _ VF) as (rest0 & k & F & HV).
  set (At := leaf (fun s => dval (E s) t) 0) in *.
  destruct (get_family t i Hg Gt Gi Ti _ _ _ _ _ F HV) as (n & rest & -> & HD & A' & HA & HA').
  change (let* item := rec i in _) with (others target rank i) in H.
  assert (OTH : others target rank i = Ok a -> 1 <= n -> result_ok (PGet t i) a).
  { intros Ho Hn. eapply others_ok; eauto. }
  assert (SF' : forall s, wv N I s -> match (if use_slice_pads fl then match_index_clipped_shift i else None) with
    | Some (index, (shift, low, high)) =>
        if smem (SX index) (free_indices t) then 1 <= n
        else if use_slice_elision fl && (is_none shift && is_none low && is_none high)
                && eq_index orc index (dim_of t 0)
        then (forall j u, E s (SX j) = Some u -> u = vint 0) -> N index = n
        else 1 <= n /\ 1 <= N index /\
             (forall a, dval (E s) t = VArr a -> padk (akind a) = true /\
                (pade = true \/ ((forall j, 1 <= N j) /\ Forall (lt 0) (ashape a)))) /\
             (forall e z, low = Some e -> den_int (E s) e z -> (0 <= z)%Z) /\
             (forall e z, high = Some e -> den_int (E s) e z -> (0 <= z <= Z.of_nat n - 1)%Z)
    | None => 1 <= n
    end).
  { intros s Hs. apply (SF s Hs _ n (good_den _ _ _ _ _ _ _ _ _ _ _ Gt Hs) (HD s Hs)). }
  pose proof (SF' _ (wv_zero N I)) as SF0.
  destruct (use_slice_pads fl); [|auto].
  destruct (match_index_clipped_shift i) as [[index [[shift low] high]]|] eqn:M; [|auto].
  destruct (smem (SX index) (free_indices t)) eqn:SM; [auto|].
  destruct (match_index_parts _ _ _ _ _ _ _ _ _ _ _ _ C _ _ _ M Gi Ti) as ((Psh & Plo & Phi) & INX & GNX).
  pose proof (match_index_sound _ _ _ M) as (_ & _ & _ & MS).
  assert (ZI : forall s, wv N I s -> exists zd zl zh, den_opt (E s) shift zd /\ den_opt (E s) low zl /\ den_opt (E s) high zh /\
     zof (dval (E s) i) = clip_form (Z.of_nat (s index)) zd zl zh).
  { intros s Hs. apply (MS (E s) (Z.of_nat (s index)) (c_at _ _ _ _ _ _ _ _ C s index Hs INX GNX)).
    apply good_den_int; auto. }
  destruct (use_slice_elision fl && (is_none shift && is_none low && is_none high) && eq_index orc index (dim_of t 0)) eqn:EL.
  - (* the target itself *)
    apply andb_true_iff in EL as [EL _]. apply andb_true_iff in EL as [_ EL].
    apply andb_true_iff in EL as [EL E3]. apply andb_true_iff in EL as [E1 E2].
    destruct shift, low, high; try discriminate. clear E1 E2 E3.
    assert (SN : N index = n).
    { apply SF0. intros j u Q. assert (Ij : In j I /\ G (SX j) <> None) by (apply (c_only _ _ _ _ _ _ _ _ C (fun _ => 0)); congruence).
      destruct Ij as [Ij Gj].
      rewrite (c_at _ _ _ _ _ _ _ _ C _ j (wv_zero N I) Ij Gj) in Q. injection Q as <-. reflexivity. }
    apply mk_axial_inv in H as (-> & NDa & _). exists [bt]. cbn [ax_axes ax_expr]. split; auto.
    split; auto. split; [apply incl_app; auto; intros x [<-|[]]; auto|].
    eapply vfrep_one; [exact HA|]. 
    destruct F as [FW FK FS FM FG]. constructor; auto.
    + rewrite FS, map_app, <- app_assoc. simpl. rewrite SN. reflexivity.
    + intros s Hs. destruct (HA' s Hs) as (? & ? & ? & _). subst k; auto.
    + intros s Hs Hb p Hp. destruct (HA' s Hs) as (_ & _ & _ & ->); auto.
      rewrite map_app, <- app_assoc. simpl.
      assert (Q : s index < n) by (rewrite <- SN; apply Hb; [apply in_or_app; right; left|]; auto).
      assert (QC : clip (zof (dval (E s) i)) n = s index).
      { destruct (ZI s Hs) as (od & ol & oh & O1 & O2 & O3 & ->). destruct od, ol, oh; try contradiction.
        unfold clip_form, clip. lia. }
      rewrite QC, <- (FG s Hs) with (p := s index :: p).
      * do 2 f_equal.
      * intros j Hj _. apply Hb; auto. apply in_or_app; auto.
      * apply inb_cons; auto.
  - (* slice and pad *)
    destruct SF0 as (Hn & HN & PKE & _).
    apply bind_ok in H as (ysz & Hsz & H). apply bind_ok in H as (ad & Had & H).
    apply bind_ok in H as (yd & Hyd & H). apply bind_ok in H as (p & Hp & H).
    apply bind_ok in H as (ysh & Hsh & H). apply bind_ok in H as (ylo & Hlo & H).
    apply bind_ok in H as (yhi & Hhi & H). apply bind_ok in H as (y & Hy & H).
    apply mk_axial_inv in H as (-> & NDa & _).
    unfold positional_axis in Hp. apply bind_ok in Hp as (rk & _ & Hp). apply bind_ok in Hp as (u & _ & Hp).
    injection Hp as <-. rewrite Nat.add_0_r in Hy.
    change (opt_part shift (yint 0) = Ok ysh) in Hsh. change (opt_part low (yint 0) = Ok ylo) in Hlo.
    change (opt_part high (ybin BSub yd (yint 1)) = Ok yhi) in Hhi.
    destruct (c_idx _ _ _ _ _ _ _ _ C index INX GNX) as (ysz' & Q & Ysz).
    rewrite Q in Hsz. injection Hsz as <-.
    assert (GTd : good (dim_of t 0) /\ int_typed (dim_of t 0)).
    { apply good_dim_of; auto. intros s Hs. exists n. auto. }
    destruct GTd as [Gd Td].
    destruct (normal_const _ _ _ Had Hyd Gd Td) as (zd & Yd & HZ).
    assert (ZD : zd = Z.of_nat n).
    { destruct (dim_of_den t (E (fun _ => 0)) 0 _ n (good_den _ _ _ _ _ _ _ _ _ _ _ Gt (wv_zero N I)) (HD _ (wv_zero N I)))
        as (w & z & D1 & D2 & D3).
      rewrite <- (HZ _ (wv_zero N I)). unfold zof. rewrite (dval_ok _ _ _ D1), D2. lia. }
    assert (Yhd : yok X r (ybin BSub yd (yint 1)) [ascalar (SI (Z.of_nat n - 1))]).
    { eapply yok_ibin; [exact Yd|apply yok_int|]. subst zd. reflexivity. }
    destruct (opt_part_ok _ _ _ _ Hsh Psh (yok_int _ _ 0)) as (zsh & Ysh & Qsh).
    destruct (opt_part_ok _ _ _ _ Hlo Plo (yok_int _ _ 0)) as (zlo & Ylo & Qlo).
    destruct (opt_part_ok _ _ _ _ Hhi Phi Yhd) as (zhi & Yhi & Qhi).
    assert (BL : (0 <= zlo)%Z).
    { destruct low as [e|]; [|lia]. destruct (SF' _ (wv_zero N I)) as (_ & _ & _ & B1 & _).
      destruct Plo. eapply B1; [reflexivity|]. rewrite <- (Qlo _ (wv_zero N I)). apply good_den_int; auto. apply wv_zero. }
    assert (BH : (0 <= zhi <= Z.of_nat n - 1)%Z).
    { destruct high as [e|]; [|lia]. destruct (SF' _ (wv_zero N I)) as (_ & _ & _ & _ & B1).
      destruct Phi. eapply B1; [reflexivity|]. rewrite <- (Qhi _ (wv_zero N I)). apply good_den_int; auto. apply wv_zero. }
    destruct (PKE _ (HV _ (wv_zero N I))) as [PK PE].
    destruct (fr_mem _ _ _ _ _ _ _ _ F _ (wv_zero N I)) as (_ & KA & SA). rewrite KA in PK. rewrite SA in PE.
    destruct (pad_slice_ok target bt n rest k index At A' ysh ylo yhi ysz' zsh zlo zhi y Hy Yt F Ysh Ylo Yhi Ysz HN Hn BL BH PK)
      as (b & Yb & Fb).
    + destruct PE as [PE|[PE1 PE2]]; auto. right. split; auto. inversion PE2; auto.
    + intros s Hs. destruct (HA' s Hs) as (A1 & A2 & A3 & A4). split; auto. split; auto. split; auto.
      intros q Hq. rewrite A4 by auto. do 2 f_equal.
      destruct (ZI s Hs) as (od & ol & oh & O1 & O2 & O3 & ->). unfold clip_form.
      assert (K : forall o z e, o = Some e -> good e /\ int_typed e -> (forall s, wv N I s -> zof (dval (E s) e) = z) ->
        forall oz, den_opt (E s) o oz -> oz = Some z).
      { intros o z e -> [Ge Te] HZ' oz Ho. destruct oz as [z'|]; [|contradiction]. simpl in Ho. f_equal.
        rewrite <- (HZ' s Hs). eapply den_int_det; [exact Ho|]. apply good_den_int; auto. }
      assert (KN : forall oz, den_opt (E s) None oz -> oz = None) by (intros [|]; simpl; auto; contradiction).
      replace (Z.of_nat (s index) + match od with Some d => d | None => 0 end)%Z with (Z.of_nat (s index) + zsh)%Z.
      2:{ destruct shift as [e|]; [rewrite (K _ _ _ eq_refl Psh Qsh _ O1); auto|]. rewrite (KN _ O1). rewrite Qsh. auto. }
      rewrite clip_clip; auto.
      * destruct low as [e|]; [rewrite (K _ _ _ eq_refl Plo Qlo _ O2)|rewrite (KN _ O2), Qlo];
        (destruct high as [e'|]; [rewrite (K _ _ _ eq_refl Phi Qhi _ O3)|rewrite (KN _ O3), Qhi]); auto.
      * intros l Hl. destruct low as [e|]; [rewrite (K _ _ _ eq_refl Plo Qlo _ O2) in Hl|rewrite (KN _ O2) in Hl; discriminate].
        injection Hl as <-. auto.
      * intros l Hl. destruct high as [e|]; [rewrite (K _ _ _ eq_refl Phi Qhi _ O3) in Hl|rewrite (KN _ O3) in Hl; discriminate].
        injection Hl as <-. auto.
    + exists [b]. cbn [ax_axes ax_expr]. split; auto. split; auto.
      split; [apply incl_app; auto; intros x [<-|[]]; auto|]. eapply vfrep_one; eauto.
Qed.
End Get.
