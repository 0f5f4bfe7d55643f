(** Properties C01-C03: as_strided rewriting (python/torch_mlir/extras/fx_as_strided.py). *)
From Coq Require Import String Ascii ZArith List Lia Bool Permutation.
From Verif Require Import Prelude AsStridedModel AsStridedSpec AsStridedProofs
  AsStridedGraphProofs.
Import ListNotations.
Open Scope Z_scope.

(** C01: when the decoder accepts a request, then for every result index the coordinates
    it produces are valid for the base tensor and address the very storage element that
    as_strided denotes. *)
Theorem C01_as_strided_reads_right_elements :
  forall (A : Type) (storage : Z -> A) base_shape base_stride base_off size stride off coords,
  indices base_shape base_stride base_off size stride off = Some coords ->
  forall idx, in_bounds idx size ->
    in_bounds (coords idx) base_shape /\
    storage (address base_off base_stride (coords idx)) = storage (address off stride idx).
Proof.
  intros. destruct (indices_sound _ _ _ _ _ _ _ H _ H0) as [? E]. now rewrite E.
Qed.

Example C01_nonvacuous :
  exists coords, indices [2; 3] [3; 1] 0 [2; 2] [1; 2] 1 = Some coords /\
    coords [1; 1] = [1; 1] /\ coords [0; 0] = [0; 1] /\ coords [1; 0] = [0; 2].
Proof. eexists. split; [reflexivity|]. vm_compute. auto. Qed.

(** C01/C03: the whole pass. For every graph, every operator semantics that depends only
    on tensor sizes and elements, and every run described by the FakeTensor metadata, the
    rewritten graph runs and gives every original name an equal value. *)
Theorem C03_rewrite_preserves_values :
  forall (A : Type) (input attr : string -> option (value A))
    (sem : nat -> list (argval A) -> list (string * argval A) -> option (value A))
    g attrs s g' e,
  NoDup (map n_name g) ->
  (forall a, attr a <> None -> In a attrs) ->
  rewrite_as_strided g attrs = Some (s, g') ->
  eval_graph A input attr sem [] g e ->
  meta_describes A g e -> no_reinterpretation g -> no_scalar_storage g ->
  sem_extensional A sem ->
  exists e', eval_graph A input (attrs_after (s_bufs s) attr) sem [] g' e' /\
    forall n v, lookup A e n = Some v ->
      exists v', lookup A e' n = Some v' /\ val_eq A v v'.
Proof. intros. eapply simulation; eauto. Qed.

(** C03: names stay unique, every original node other than as_strided is kept as it is and
    in order; every as_strided is replaced, at its place, by reads of newly registered
    attributes and one index node carrying the old name. *)
Theorem C03_rewrite_frame :
  forall g attrs s g', NoDup (map n_name g) -> rewrite_as_strided g attrs = Some (s, g') ->
  NoDup (map n_name g') /\
  (forall a, In a (map fst (s_bufs s)) -> ~ In a attrs) /\
  NoDup (map fst (s_bufs s)) /\
  exists segs, g' = concat segs /\
    Forall2 (fun n seg =>
      (n_op n <> OAsStrided -> seg = [n]) /\
      (n_op n = OAsStrided -> exists consts idx, seg = consts ++ [idx] /\
         n_name idx = n_name n /\ n_op idx = OIndex /\
         forall c, In c consts -> exists a, n_op c = OGetAttr a /\ In a (map fst (s_bufs s))))
      g segs.
Proof.
  intros g attrs s g' ND H. unfold rewrite_as_strided in H.
  apply rewrite_rev_spec with (attrs := attrs) in H.
  2: { split; simpl; auto.
       - rewrite app_nil_r, map_rev. apply Permutation_rev.
       - constructor.
       - intros x [].
       - apply incl_refl. }
  destruct H as (segs & F & Eg' & I & _). rewrite rev_involutive in F.
  rewrite app_nil_r in Eg'.
  split; [eapply Permutation_NoDup; apply I|].
  split; [apply I|]. split; [apply I|].
  exists segs. split; auto. eapply Forall2_impl'; [|exact F]. clear F.
  intros n seg [[Hop ->]|[Hop Hs]]; split; intros; try congruence.
  unfold strided_seg in Hs.
  destruct Hs as (src & sizea & size & stridea & stride & offa & sm & off & base & bm &
          bshape & bstride & boff & coords & consts & idxn & G0 & G1 & A1 & G2 & A2 & G3 & Msm &
          Hoff & Hbase & Mbm & Mbs & Mbst & Mbo & Hidx & Fc & Nn & Nop & Nkw & Nargs & ->).
  exists consts, idxn. repeat split; auto.
  intros c Hc. clear -Fc Hc. induction Fc as [|x t l l' Hx Fc IH]; [destruct Hc|].
  destruct Hc as [<-|Hc]; auto. destruct Hx as (a & Ha & _ & _ & Hin).
  exists a. split; auto. apply in_map_iff. exists (a, t). auto.
Qed.

(** C02: dense row-major bases: every in-range view is rewritten. *)
Theorem C02_row_major_views_accepted :
  forall base_shape base_off size stride off,
  Forall (fun n => 0 < n) base_shape ->
  length stride = length size -> Forall (fun n => 0 <= n) size ->
  (forall idx, in_bounds idx size ->
     0 <= address off stride idx - base_off < prodZ base_shape) ->
  exists coords, indices base_shape (row_major base_shape) base_off size stride off = Some coords.
Proof. exact indices_complete_row_major. Qed.

(** C02 for other dense orders (channels-last etc.), when no dimension has size 1. *)
Theorem C02_packed_views_accepted_partial :
  forall base_shape base_stride order base_off size stride off,
  length base_stride = length base_shape -> Forall (fun n => 1 < n) base_shape ->
  Permutation order (seq 0 (length base_shape)) -> packed base_shape base_stride order ->
  length stride = length size -> Forall (fun n => 0 <= n) size ->
  (forall idx, in_bounds idx size ->
     0 <= address off stride idx - base_off < prodZ base_shape) ->
  exists coords, indices base_shape base_stride base_off size stride off = Some coords.
Proof. exact indices_complete_packed. Qed.

Example C02_nonvacuous : (* NCHW sizes 2,3,4,5 stored channels-last *)
  packed [2; 3; 4; 5] [60; 1; 15; 3] [0; 2; 3; 1]%nat /\
  Permutation [0; 2; 3; 1]%nat (seq 0 4) /\
  indices [2; 3; 4; 5] [60; 1; 15; 3] 0 [2; 2] [60; 7] 4 <> None.
Proof.
  split; [vm_compute; auto|]. split; [|vm_compute; discriminate].
  simpl. constructor. symmetry. change [2; 3; 1]%nat with ([2; 3] ++ [1])%nat.
  change [1; 2; 3]%nat with ([1] ++ [2; 3])%nat. apply Permutation_app_comm.
Qed.

(** Without the size-1 exclusion the claim fails: a dense channels-last base with one
    channel (sizes 1,1,2,2; strides 4,1,2,1) is refused although the request is the base
    itself. The decoder breaks the stride tie in favour of the size-1 dim. *)
Theorem C02_channels_last_one_channel_refuted :
  exists base_shape base_stride order size stride off,
    Forall (fun n => 0 < n) base_shape /\
    Permutation order (seq 0 (length base_shape)) /\ packed base_shape base_stride order /\
    length stride = length size /\
    (forall idx, in_bounds idx size -> 0 <= address off stride idx < prodZ base_shape) /\
    indices base_shape base_stride 0 size stride off = None.
Proof.
  exists [1; 1; 2; 2], [4; 1; 2; 1], [0; 2; 3; 1]%nat, [4], [1], 0.
  repeat split; try (vm_compute; reflexivity).
  - repeat constructor.
  - simpl. constructor. symmetry. change [2; 3; 1]%nat with ([2; 3] ++ [1])%nat.
    change [1; 2; 3]%nat with ([1] ++ [2; 3])%nat. apply Permutation_app_comm.
  - inversion H as [|? ? ? ? H1 H2]; subst. inversion H2; subst. unfold address. simpl. lia.
  - inversion H as [|? ? ? ? H1 H2]; subst. inversion H2; subst. unfold address.
    change (prodZ [1;1;2;2]) with 4. simpl. lia.
Qed.

(** ** The two hypotheses of the pass theorem are needed *)

(** A graph: x (complex, 2 elements), v = view_as_real x (2x2 floats, same storage),
    r = as_strided(v, [2], [1], 0). *)
Definition cx_meta := {| m_shape := [Some 2]; m_stride := [Some 1]; m_offset := Some 0;
                         m_storage := 7; m_dtype := 1 |}.
Definition re_meta := {| m_shape := [Some 2; Some 2]; m_stride := [Some 2; Some 1];
                         m_offset := Some 0; m_storage := 7; m_dtype := 0 |}.
Definition r_meta := {| m_shape := [Some 2]; m_stride := [Some 1]; m_offset := Some 0;
                        m_storage := 7; m_dtype := 0 |}.
Definition cx_graph : list node :=
  [ {| n_name := "x"; n_op := OPlaceholder; n_args := []; n_kwargs := []; n_meta := Some cx_meta |};
    {| n_name := "v"; n_op := OOther 0; n_args := [ANode "x"]; n_kwargs := [];
       n_meta := Some re_meta |};
    {| n_name := "r"; n_op := OAsStrided;
       n_args := [ANode "v"; AList [AInt 2]; AList [AInt 1]; AInt 0]; n_kwargs := [];
       n_meta := Some r_meta |} ].
(** Elements are integers: complex element k is 10+k, real component k is k. *)
Definition cx_tensor : tensor Z :=
  {| t_shape := [2]; elem := fun i => 10 + (0 + dot i [1]); t_rd := fun k => 10 + k;
     t_stride := [1]; t_off := 0 |}.
Definition re_tensor : tensor Z :=
  {| t_shape := [2; 2]; elem := fun i => 0 + dot i [2; 1]; t_rd := fun k => k;
     t_stride := [2; 1]; t_off := 0 |}.
Definition r_tensor : tensor Z :=
  {| t_shape := [2]; elem := fun i => address 0 [1] i; t_rd := fun k => k;
     t_stride := [1]; t_off := 0 |}.
Definition cx_env : env Z :=
  [("r", VT Z r_tensor); ("v", VT Z re_tensor); ("x", VT Z cx_tensor)]%string.
Definition cx_input (n : string) : option (value Z) :=
  if String.eqb n "x" then Some (VT Z cx_tensor) else None.
Definition cx_sem (k : nat) (a : list (argval Z)) (kw : list (string * argval Z))
  : option (value Z) := Some (VT Z re_tensor).

Lemma cx_run : eval_graph Z cx_input (fun _ => None) cx_sem [] cx_graph cx_env.
Proof.
  unfold cx_graph, cx_env.
  eapply eg_cons with (v := VT Z cx_tensor).
  { exists [], []. repeat split. }
  eapply eg_cons with (v := VT Z re_tensor).
  { exists [RVal Z (VT Z cx_tensor)], []. repeat split. }
  eapply eg_cons with (v := VT Z r_tensor).
  { exists [RVal Z (VT Z re_tensor); RList Z [RInt Z 2]; RList Z [RInt Z 1]; RInt Z 0], [].
    split; [reflexivity|]. split; [reflexivity|]. simpl.
    exists (RVal Z (VT Z re_tensor)), (RList Z [RInt Z 2]), (RList Z [RInt Z 1]), (RInt Z 0).
    repeat split. }
  constructor.
Qed.

(** Finding: with a dtype-reinterpreting view in the chain every other hypothesis holds,
    the request is accepted, and no run of the rewritten graph gives [r] its value. *)
Theorem C01_dtype_reinterpreting_view_refuted :
  exists s g', NoDup (map n_name cx_graph) /\
    rewrite_as_strided cx_graph [] = Some (s, g') /\
    eval_graph Z cx_input (fun _ => None) cx_sem [] cx_graph cx_env /\
    meta_describes Z cx_graph cx_env /\ no_scalar_storage cx_graph /\
    sem_extensional Z cx_sem /\
    forall e', eval_graph Z cx_input (attrs_after (s_bufs s) (fun _ => None)) cx_sem [] g' e' ->
      exists v', lookup Z e' "r" = Some v' /\ ~ val_eq Z (VT Z r_tensor) v'.
Proof.
  destruct (rewrite_as_strided cx_graph []) as [[s g']|] eqn:E; [|vm_compute in E; discriminate].
  exists s, g'. split; [|split; [reflexivity|split; [exact cx_run|split; [|split; [|split]]]]].
  - repeat constructor; simpl; intuition discriminate.
  - assert (HM : forall n m, node_meta cx_graph n = Some m ->
      (n = "x"%string /\ m = cx_meta) \/ (n = "v"%string /\ m = re_meta) \/
      (n = "r"%string /\ m = r_meta)).
    { intros n m H. unfold node_meta, find_node, cx_graph in H. cbn [find n_name] in H.
      destruct (String.eqb "x" n) eqn:E1; [apply String.eqb_eq in E1; subst; simpl in H; left; split; congruence|].
      destruct (String.eqb "v" n) eqn:E2; [apply String.eqb_eq in E2; subst; simpl in H; right; left; split; congruence|].
      destruct (String.eqb "r" n) eqn:E3; [apply String.eqb_eq in E3; subst; simpl in H; right; right; split; congruence|].
      discriminate. }
    split.
    + intros n m H. apply HM in H. destruct H as [[-> ->]|[[-> ->]|[-> ->]]]; eexists;
      (split; [reflexivity|]); (split; [split; [reflexivity|]; intros; reflexivity|]);
      repeat split; intros l Hl; vm_compute in Hl; inversion Hl; reflexivity.
    + intros n1 m1 t1 n2 m2 t2 H1 L1 H2 L2 _ Hd k. apply HM in H1, H2.
      destruct H1 as [[-> ->]|[[-> ->]|[-> ->]]]; destruct H2 as [[-> ->]|[[-> ->]|[-> ->]]];
      try discriminate Hd; vm_compute in L1, L2; inversion L1; inversion L2; subst; reflexivity.
  - intros n m H Hm. unfold node_meta, find_node, cx_graph in H. cbn [find n_name] in H.
    destruct (String.eqb "x" n); [simpl in H; inversion H; subst; discriminate|].
    destruct (String.eqb "v" n); [simpl in H; inversion H; subst; discriminate|].
    destruct (String.eqb "r" n); [simpl in H; inversion H; subst; discriminate|].
    discriminate.
  - intros k args kw args' kw' v H _ _. exists v. split; auto. apply val_eq_refl.
  - vm_compute in E. inversion E; subst; clear E. intros e' He.
    inversion He as [|? ? v1 ? ? H1 He1]; subst; clear He.
    destruct H1 as (a1 & k1 & _ & _ & H1). vm_compute in H1. inversion H1; subst; clear H1.
    inversion He1 as [|? ? v2 ? ? H2 He2]; subst; clear He1.
    destruct H2 as (a2 & k2 & _ & _ & H2). vm_compute in H2. inversion H2; subst; clear H2.
    inversion He2 as [|? ? v3 ? ? H3 He3]; subst; clear He2.
    destruct H3 as (a3 & k3 & _ & _ & H3). 
    cbn [n_op attrs_after find fst String.eqb s_bufs] in H3. simpl in H3.
    inversion H3; subst; clear H3.
    inversion He3 as [|? ? v4 ? ? H4 He4]; subst; clear He3.
    inversion He4; subst; clear He4.
    exists v4. split; [reflexivity|].
    destruct H4 as (a4 & k4 & H4a & _ & H4). cbn [n_op] in H4.
    destruct H4 as (self & ix & -> & H4). simpl in H4a. inversion H4a; subst; clear H4a.
    simpl in H4. destruct H4 as (fs & F & _ & t' & -> & Hsz & Hel).
    inversion F; subst. intros [_ Hv].
    assert (Hb : in_bounds [0] [2]) by (repeat constructor; lia).
    specialize (Hv [0] Hb). destruct (Hel [0] Hb) as [_ He]. rewrite He in Hv.
    vm_compute in Hv. discriminate.
Qed.

(** Finding: a 0-d base gives no index tensors; the replacement then is the base itself,
    whose sizes are not the requested ones. *)
Theorem C01_scalar_base_refuted :
  exists size stride off coords,
    indices [] [] 0 size stride off = Some coords /\
    length size = length stride /\
    (forall idx, in_bounds idx size -> address off stride idx = 0) /\
    forall (t : tensor Z) r, t_shape Z t = [] ->
      index_sem Z (RVal Z (VT Z t)) (RList Z
        (map (fun d => RVal Z (VI Z size (fun i => nth d (coords i) 0))) (seq 0 (length (@nil Z))))) r ->
      exists t', r = VT Z t' /\ t_shape Z t' <> size.
Proof.
  exists [3], [0], 0. eexists. split; [reflexivity|]. split; [reflexivity|]. split.
  - intros idx H. inversion H; subst. inversion H4; subst. unfold address. simpl. lia.
  - intros t r Ht H. simpl in H. subst. eexists. split; [reflexivity|]. rewrite Ht. discriminate.
Qed.

(** Non-vacuity of the pass theorem: a contiguous 2x3 base, a transposed view of it and an
    as_strided of the view, with a keyword offset. *)
Definition ok_graph : list node :=
  [ {| n_name := "x"; n_op := OPlaceholder; n_args := []; n_kwargs := [];
       n_meta := Some {| m_shape := [Some 2; Some 3]; m_stride := [Some 3; Some 1];
                         m_offset := Some 0; m_storage := 7; m_dtype := 1 |} |};
    {| n_name := "t"; n_op := OOther 0; n_args := [ANode "x"]; n_kwargs := [];
       n_meta := Some {| m_shape := [Some 3; Some 2]; m_stride := [Some 1; Some 3];
                         m_offset := Some 0; m_storage := 7; m_dtype := 1 |} |};
    {| n_name := "r"; n_op := OAsStrided;
       n_args := [ANode "t"; AList [AInt 2]; AList [AInt 2]];
       n_kwargs := [("storage_offset"%string, AInt 1)];
       n_meta := Some {| m_shape := [Some 2]; m_stride := [Some 2]; m_offset := Some 1;
                         m_storage := 7; m_dtype := 1 |} |};
    {| n_name := "o"; n_op := OOther 1; n_args := [ANode "r"]; n_kwargs := []; n_meta := None |} ].

Example C03_nonvacuous :
  option_map (fun r => map (fun n => (n_name n, n_op n)) (snd r))
    (rewrite_as_strided ok_graph ["_torch_mlir_as_strided_r_index_0"%string]) =
  Some [("x", OPlaceholder); ("t", OOther 0);
        ("_torch_mlir_as_strided_r_index_0_", OGetAttr "_torch_mlir_as_strided_r_index_0_");
        ("_torch_mlir_as_strided_r_index_1", OGetAttr "_torch_mlir_as_strided_r_index_1");
        ("r", OIndex); ("o", OOther 1)]%string.
Proof. vm_compute. reflexivity. Qed.

Print Assumptions C01_as_strided_reads_right_elements.
Print Assumptions C03_rewrite_preserves_values.
Print Assumptions C03_rewrite_frame.
Print Assumptions C02_row_major_views_accepted.
Print Assumptions C02_packed_views_accepted_partial.
Print Assumptions C02_channels_last_one_channel_refuted.
Print Assumptions C01_dtype_reinterpreting_view_refuted.
Print Assumptions C01_scalar_base_refuted.
