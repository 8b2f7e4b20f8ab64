(** Properties C17, C18, C31: named axes and padding. *)
From Verif Require Import Base Scalar Tensor Types Sym Phi Den Typing DenWf NdOps NdFacts Yarr Axial AxialFacts AxialOps IndexOps YOps FastPad Sample.

Section Props.
Context {FO : FloatOps} {EX : Externs} {PO : PadOps}.

(** [y] evaluates to [a], whatever the variables outside [X] are. *)
Definition runs (X : list nat) (r : yenv) (y : yarr) (a : arr) : Prop :=
  (forall r', (forall x, In x X -> r (SV x) = r' (SV x)) -> yeval r' y = Ok (YA a)) /\
  ytyp y = Ok [(length (ashape a), akind a)].

Lemma runs_yok X r y a : runs X r y a <-> yok X r y [a].
Proof. reflexivity. Qed.

Lemma filter_short {A} (f : A -> bool) l : length (filter f l) <= length l.
Proof. induction l as [|x l IH]; simpl; auto. destruct (f x); simpl; lia. Qed.

(** The member of the family at assignment [s]. *)
Definition section_at (b : arr) (axes rest : list nat) (s : nat -> nat) : arr :=
  tab (akind b) rest (fun p => get b (map s axes ++ p)).

Lemma section_frep N I b axes rest : arr_wf b -> ashape b = map N axes ++ rest ->
  frep N I all_axes axes rest (akind b) b (section_at b axes rest).
Proof.
  intros W S. constructor; auto.
  - intros s Hs. split; [|split; reflexivity]. apply nd_tab_wf; auto.
  - intros s Hs HI p Hp. unfold section_at. rewrite get_tab by auto. reflexivity.
Qed.

(** * C17 *)

(** The axes of the result: all of [into], or from the first one present. *)
Definition result_axes (leftpad : bool) (axes into : list nat) : list nat :=
  if leftpad then into
  else (fix from l := match l with [] => [] | x :: t => if existsb (Nat.eqb x) axes then l else from t end) into.

Lemma result_axes_into leftpad axes into : result_axes leftpad axes into = into_axes leftpad axes into.
Proof.
  destruct leftpad; auto. unfold result_axes, into_axes. induction into as [|x t IH]; auto.
  cbn [trim]. rewrite <- IH. reflexivity.
Qed.

Theorem C17_alignment X r y axes into leftpad repeats y' (N : nat -> nat) b rest :
  align y axes into leftpad repeats = Ok y' ->
  NoDup axes -> NoDup into -> runs X r y b -> arr_wf b -> ashape b = map N axes ++ rest ->
  (forall i n, In i into -> assoc i repeats = Some n -> runs X r n (ascalar (SI (Z.of_nat (N i))))) ->
  let shown i := existsb (Nat.eqb i) axes || match assoc i repeats with Some _ => true | None => false end in
  exists b', yeval r y' = Ok (YA b') /\ akind b' = akind b /\
    ashape b' = map (fun i => if shown i then N i else 1) (result_axes leftpad axes into) ++ rest /\
    forall s p, (forall i, In i into -> s i < N i) -> inb rest p ->
      get b' (map (fun i => if shown i then s i else 0) (result_axes leftpad axes into) ++ p) = get b (map s axes ++ p).
Proof.
  intros H NA NI Hy W S HR shown.
  destruct (align_ok N into X r y axes into leftpad repeats y' rest (akind b) b (section_at b axes rest) H) as (b' & Y' & F);
    auto.
  - apply incl_refl.
  - apply section_frep; auto.
  - exists b'. rewrite result_axes_into. split; [apply Y'; intros ? ?; auto|]. split; [apply F|]. split; [apply F|].
    intros s p Hs Hp. assert (Q := fr_get _ _ _ _ _ _ _ _ F s). rewrite Q; auto.
    + unfold section_at. rewrite get_tab by auto. reflexivity.
    + intros i Hi. specialize (Hs i Hi). lia.
    + intros i Hi _. apply Hs. destruct leftpad; auto. eapply trim_incl; eauto.
Qed.

Theorem C17_common_axes (args : list (list nat)) :
  NoDup (alignment args) /\ forall x, In x (alignment args) <-> exists axes, In axes args /\ In x axes.
Proof. split; [apply alignment_NoDup|intros x; apply alignment_In]. Qed.

(** * C18 *)

Theorem C18_vectorise X r y axes i size a' (N : nat -> nat) b rest :
  along (mkAxial axes y) i size = Ok a' ->
  NoDup axes -> runs X r y b -> arr_wf b -> ashape b = map N axes ++ rest ->
  runs X r size (ascalar (SI (Z.of_nat (N i)))) ->
  exists b', yeval r (ax_expr a') = Ok (YA b') /\ akind b' = akind b /\
    NoDup (ax_axes a') /\ (forall x, In x (ax_axes a') <-> In x axes /\ x <> i) /\
    ashape b' = map N (ax_axes a') ++ N i :: rest /\
    forall s p, (forall x, In x (i :: axes) -> s x < N x) -> inb rest p ->
      get b' (map s (ax_axes a') ++ s i :: p) = get b (map s axes ++ p).
Proof.
  intros H NA Hy W S HR. set (I := filter (fun x => negb (x =? i)) axes).
  assert (HI : forall x, In x I <-> In x axes /\ x <> i).
  { intros x. unfold I. rewrite filter_In, negb_true_iff, Nat.eqb_neq. tauto. }
  set (A := section_at b axes rest).
  set (A' := fun s => tab (akind b) (N i :: rest) (fun q => match q with [] => get b [] | j :: p => get b (map (set_asg s i j) axes ++ p) end)).
  destruct (along_ok N I X r axes y i size a' rest (akind b) b A A') as (b' & Y' & ND' & IN' & F); auto.
  - rewrite HI. tauto.
  - intros x Hx. destruct (Nat.eq_dec x i) as [->|]; [left; auto|right; apply HI; auto].
  - apply section_frep; auto.
  - intros s Hs. split; [|split; [reflexivity|split; [reflexivity|]]].
    + apply tab_wf. intros [|j p] _; apply get_kind_any; auto.
    + intros j p Hj Hp. unfold A'. rewrite get_tab by (apply inb_cons; auto). unfold A, section_at. rewrite get_tab by auto. auto.
  - exists b'. split; [apply Y'; intros ? ?; auto|]. split; [apply F|]. split; auto.
    assert (LEN : length I <= length (ax_axes a')).
    { assert (LI : length I <= length axes - (if mem i axes then 1 else 0)).
      { destruct (mem i axes) eqn:M; [|unfold I; rewrite Nat.sub_0_r; apply filter_short].
        apply mem_In in M. apply in_split in M as (l1 & l2 & ->). unfold I. rewrite filter_app. cbn [filter]. rewrite Nat.eqb_refl.
        cbn [negb]. rewrite !app_length. cbn [length].
        pose proof (filter_short (fun x => negb (x =? i)) l1). pose proof (filter_short (fun x => negb (x =? i)) l2). lia. }
      unfold along in H. cbn [ax_axes ax_expr] in H. apply bind_ok in H as (rk & _ & H). apply bind_ok in H as (u & _ & H).
      destruct (index_of i axes) as [j|] eqn:IX.
      - apply mk_axial_inv in H as (-> & _). cbn [ax_axes]. rewrite map_length, seq_length.
        assert (M : mem i axes = true).
        { apply index_of_Some in IX as (LT & NT). apply mem_In. rewrite <- NT. apply nth_In; auto. }
        rewrite M in LI. auto.
      - apply mk_axial_inv in H as (-> & _). cbn [ax_axes]. lia. }
    split; [|split; [apply F|]].
    + intros x. rewrite <- HI. split; [apply IN'|]. apply (NoDup_length_incl ND' LEN IN').
    + intros s p Hs Hp.
      assert (Q := fr_get _ _ _ _ _ _ _ _ F s). 
      rewrite <- (map_ext (fun x => if all_axes x then s x else 0) s) by reflexivity.
      rewrite Q.
      * unfold A'. rewrite get_tab by (apply inb_cons; split; auto; apply Hs; left; auto). f_equal. f_equal.
        apply map_ext. intros x. unfold set_asg. destruct (x =? i) eqn:E; auto. apply Nat.eqb_eq in E. subst; auto.
      * intros x Hx. apply HI in Hx as [Hx _]. specialize (Hs x (or_intror Hx)). lia.
      * intros x Hx _. apply IN' in Hx. apply HI in Hx as [Hx _]. apply Hs. right; auto.
      * apply inb_cons; split; auto. apply Hs; left; auto.
Qed.

(** * C31 *)

(** One side of one axis is padded: each element is the nearest one of the
    array, converted to float. *)
Theorem C31_one_side garbage (a : arr) u n v l r :
  arr_wf a -> ashape a = u ++ n :: v -> Forall (lt 0) (ashape a) ->
  (0 <= l)%Z -> (0 <= r)%Z -> (l = 0 \/ r = 0)%Z -> (0 < l + r)%Z ->
  exists b, fast_edge_pad garbage a (repeat (0, 0)%Z (length u) ++ (l, r) :: repeat (0, 0)%Z (length v)) = Ok b /\
    akind b = KFloat /\ ashape b = u ++ (n + Z.to_nat l + Z.to_nat r) :: v /\
    forall i j p, inb u i -> j < n + Z.to_nat l + Z.to_nat r -> inb v p ->
      get b (i ++ j :: p) = to_float (get a (i ++ clip (Z.of_nat j - l) n :: p)).
Proof.
  intros W S P Hl Hr ONE POS. destruct (fast_one_sided garbage a u n v l r W S P Hl Hr ONE POS) as (b & B1 & B2).
  assert (Hn : 0 < n) by (rewrite S in P; apply Forall_app in P as [_ P]; inversion P; auto).
  destruct (pad_one u n v a l r W S Hn Hl Hr) as (b0 & Hb & Wb & Kb & Sb & Gb). rewrite B1 in Hb. injection Hb as <-.
  exists (as_float b). split; [exact B2|]. split; [reflexivity|]. split; [exact Sb|]. intros i j p Hi Hj Hp.
  unfold as_float. rewrite get_tab; [rewrite Gb; auto|]. rewrite Sb. apply inb_app; [apply inb_length; auto|].
  split; auto. apply inb_cons; auto.
Qed.

(** Float arrays with elements, one axis padded on both sides. *)
Theorem C31_one_axis garbage (a : arr) u n v l r :
  arr_wf a -> ashape a = u ++ n :: v -> Forall (lt 0) (ashape a) -> akind a = KFloat ->
  (0 <= l)%Z -> (0 <= r)%Z ->
  exists b, fast_edge_pad garbage a (repeat (0, 0)%Z (length u) ++ (l, r) :: repeat (0, 0)%Z (length v)) = Ok b /\
    akind b = KFloat /\ ashape b = u ++ (n + Z.to_nat l + Z.to_nat r) :: v /\
    forall i j p, inb u i -> j < n + Z.to_nat l + Z.to_nat r -> inb v p ->
      get b (i ++ j :: p) = get a (i ++ clip (Z.of_nat j - l) n :: p).
Proof.
  intros W S P K Hl Hr.
  assert (Hn : 0 < n) by (rewrite S in P; apply Forall_app in P as [_ P]; inversion P; auto).
  destruct (pad_one u n v a l r W S Hn Hl Hr) as (b0 & Hb & Wb & Kb & Sb & Gb).
  exists b0. split; [|split; [congruence|auto]]. rewrite <- Hb. apply fast_one_axis with (n := n); auto.
Qed.

(** The shape, for any pads of an array with elements. *)
Theorem C31_shape garbage (a b : arr) pads :
  Forall (lt 0) (ashape a) -> fast_edge_pad garbage a pads = Ok b ->
  ashape b = map (fun q => fst q + Z.to_nat (fst (snd q)) + Z.to_nat (snd (snd q))) (combine (ashape a) pads).
Proof. exact (fast_shape garbage a pads b). Qed.

(** An array without elements: the padded shape forgets the array. *)
Theorem C31_empty_shape_refuted garbage :
  exists (a b : arr) pads, arr_wf a /\ fast_edge_pad garbage a pads = Ok b /\
    ashape b <> map (fun q => fst q + Z.to_nat (fst (snd q)) + Z.to_nat (snd (snd q))) (combine (ashape a) pads).
Proof.
  exists (mkArr KFloat [0; 3] []). eexists. exists [(0, 0); (1, 0)]%Z. split; [|split; [reflexivity|discriminate]].
  split; [reflexivity|constructor].
Qed.

(** Integers become floats. *)
Theorem C31_kind_refuted garbage :
  exists (a b : arr) pads, arr_wf a /\ Forall (lt 0) (ashape a) /\ fast_edge_pad garbage a pads = Ok b /\ akind a = KInt /\ akind b = KFloat.
Proof.
  exists (mkArr KInt [1] [SI 5]). eexists. exists [(1, 0)]%Z. split; [|split; [|split; [reflexivity|split; reflexivity]]].
  - split; [reflexivity|]. repeat constructor.
  - repeat constructor.
Qed.

(** Two axes padded on one side each: parts of the result are uninitialised. *)
Theorem C31_corner_refuted (x y : F) : x <> y ->
  exists (a : arr) pads b b', arr_wf a /\ akind a = KFloat /\ Forall (lt 0) (ashape a) /\
    fast_edge_pad (fun _ => x) a pads = Ok b /\ fast_edge_pad (fun _ => y) a pads = Ok b' /\ b <> b'.
Proof.
  intros H. exists (mkArr KFloat [1; 1] [SF x]). exists [(1, 0); (1, 0)]%Z. do 2 eexists.
  split; [split; [reflexivity|]; repeat constructor|].
  split; [reflexivity|]. split; [repeat constructor|]. split; [reflexivity|]. split; [reflexivity|].
  intros E. apply (f_equal (fun a => get a [0; 1])) in E. cbv in E. injection E as E. auto.
Qed.
End Props.

(** * Examples *)

(** C17: axes [5;3] of sizes 2 and 3, aligned into [3;7;5] with axis 7 repeated. *)
Example C17_alignment_example :
  exists y b, let b0 := farr [2; 3] [1; 2; 3; 4; 5; 6]%Z in
    @align zfloat (YConst b0) [5; 3] [3; 7; 5] true [(7, YConst (ascalar (SI 2)))] = Ok y /\
    @yeval zfloat no_externs edge_pads empty_env y = Ok (YA b) /\ ashape b = [3; 2; 2] /\
    get b [2; 1; 0] = get b0 [0; 2].
Proof. do 2 eexists. cbv zeta. split; [vm_compute; reflexivity|]. split; [vm_compute; reflexivity|]. split; vm_compute; reflexivity. Qed.

(** C18: index 5 becomes the first positional axis. *)
Example C18_vectorise_example :
  exists a' b, let b0 := farr [2; 3] [1; 2; 3; 4; 5; 6]%Z in
    @along zfloat (mkAxial [5; 3] (YConst b0)) 5 (YConst (ascalar (SI 2))) = Ok a' /\ ax_axes a' = [3] /\
    @yeval zfloat no_externs edge_pads empty_env (ax_expr a') = Ok (YA b) /\ ashape b = [3; 2] /\
    get b [2; 1] = get b0 [1; 2].
Proof. do 2 eexists. cbv zeta. split; [vm_compute; reflexivity|]. split; [reflexivity|]. split; [vm_compute; reflexivity|]. split; vm_compute; reflexivity. Qed.

(** C31: the second axis of a 2x2 array, padded by 2 on the right. *)
Example C31_one_side_example :
  @fast_edge_pad zfloat (fun _ => 99%Z) (farr [2; 2] [1; 2; 3; 4]%Z) [(0, 0); (0, 2)]%Z =
  Ok (farr [2; 4] [1; 2; 2; 2; 3; 4; 4; 4]%Z).
Proof. vm_compute. reflexivity. Qed.
Example C31_one_axis_example :
  @fast_edge_pad zfloat (fun _ => 99%Z) (farr [2; 2] [1; 2; 3; 4]%Z) [(0, 0); (1, 1)]%Z =
  Ok (farr [2; 4] [1; 1; 2; 2; 3; 3; 4; 4]%Z).
Proof. vm_compute. reflexivity. Qed.
Example C31_shape_example :
  exists b, @fast_edge_pad zfloat (fun _ => 99%Z) (farr [2; 1] [1; 2]%Z) [(0, 1); (1, 0)]%Z = Ok b /\ ashape b = [3; 2].
Proof. eexists. split; [vm_compute; reflexivity|reflexivity]. Qed.

Print Assumptions C17_alignment.
Print Assumptions C17_common_axes.
Print Assumptions C18_vectorise.
Print Assumptions C31_one_side.
Print Assumptions C31_one_axis.
Print Assumptions C31_shape.
Print Assumptions C31_empty_shape_refuted.
Print Assumptions C31_kind_refuted.
Print Assumptions C31_corner_refuted.
